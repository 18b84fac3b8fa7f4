(** Round trip: decoding the encoding of a value. *)
From Verif Require Import Base Varint WireFmt Utf8 Types Ser Spec De ValInd VarintProofs WireProofs
  SerProofs TypeProofs EqProofs DeProofs.

(** ** Every successful step consumes something *)

Definition msuf (tw : wtype) (mg : merger) : Prop := forall v bs v' rest,
  mg v bs = (v', Ok rest) -> match tw with Varint => (length rest < length bs)%nat | Sized => rest = [] end.

Lemma loop_end {S} (step : S -> bytes -> S * res bytes) : forall f s bs s' rest,
  loop f step s bs = (s', Ok rest) -> rest = [].
Proof.
  induction f as [|f IH]; intros s bs s' rest H; destruct bs as [|b bs]; cbn in H; try congruence.
  destruct (step s (b :: bs)) as [s1 [r|e| |]]; cbn in H; try congruence. eauto.
Qed.
Lemma run_end {S} (step : S -> bytes -> S * res bytes) s bs s' rest :
  run step s bs = (s', Ok rest) -> rest = [].
Proof. apply loop_end. Qed.

Lemma suffix_len {A} (bs p rest : list A) : bs = p ++ rest -> p <> [] -> (length rest < length bs)%nat.
Proof. intros -> H. rewrite app_length. destruct p; [congruence|cbn; lia]. Qed.

Lemma try_ok {S A} (s : S) (x : res A) k s' rest : try s x k = (s', Ok rest) ->
  exists a, x = Ok a /\ k a = (s', Ok rest).
Proof. destruct x; cbn; intros H; try congruence. eauto. Qed.

Lemma merge_nested_consuming m tw mg w v bs v' rest : msuf tw mg ->
  merge_nested m tw mg w v bs = (v', Ok rest) -> (length rest < length bs)%nat.
Proof.
  intros H E. unfold merge_nested in E. destruct (wtype_eqb w tw) eqn:W; cbn [negb] in E.
  - destruct w, tw; try discriminate W.
    + now apply H in E.
    + apply try_ok in E. destruct E as ([sub after] & E1 & E2).
      apply rd_nested_suffix in E1. destruct E1 as (p & -> & Hp).
      destruct (mg v sub) as [x o] eqn:M. inversion E2 as [[X1 X2]].
      destruct o as [r|e| |]; cbn in X2; try discriminate X2. inversion X2; subst.
      apply H in M. subst r. cbn [app].
      apply (suffix_len _ (p ++ sub)); [now rewrite <- app_assoc|]. destruct p; [congruence|discriminate].
  - inversion E as [[X1 X2]]. apply rd_skip_suffix in X2. destruct X2 as (p & -> & Hp). now apply (suffix_len _ p).
Qed.

Lemma de_nested_consuming m tw mg d bs v' rest : msuf tw mg ->
  de_nested m tw mg d bs = Ok (v', rest) -> (length rest < length bs)%nat.
Proof.
  intros H E. unfold de_nested in E. destruct (merge_nested m tw mg tw d bs) as [v o] eqn:M.
  destruct o; cbn in E; try discriminate E. inversion E; subst. now apply merge_nested_consuming in M.
Qed.

Lemma opt_step_consuming m tw mg d : msuf tw mg -> consuming (opt_step m tw mg d).
Proof.
  intros H s bs s' rest E. unfold opt_step in E. destruct (merge_nested _ _ _ _ _ bs) as [x o] eqn:M.
  inversion E; subst. now apply merge_nested_consuming in M.
Qed.
Lemma vec_step_consuming m tw mg d : msuf tw mg -> consuming (vec_step m tw mg d).
Proof.
  intros H s bs s' rest E. unfold vec_step in E. apply try_ok in E. destruct E as ([x r] & E1 & E2).
  inversion E2; subst. now apply de_nested_consuming in E1.
Qed.
Lemma hash_step_consuming m kw kmg kd vw vmg vd : msuf kw kmg -> msuf vw vmg ->
  consuming (hash_step m kw kmg kd vw vmg vd).
Proof.
  intros H1 H2 s bs s' rest E. unfold hash_step in E. apply try_ok in E. destruct E as ([x r] & E1 & E2).
  apply try_ok in E2. destruct E2 as ([y r2] & E2 & E3). inversion E3; subst.
  apply de_nested_consuming in E1; [|exact H1]. apply de_nested_consuming in E2; [|exact H2]. lia.
Qed.
Lemma merge_field_consuming m ms : Forall (fun p : N * (wtype * merger) => msuf (fst (snd p)) (snd (snd p))) ms ->
  forall fs fn w bs fs' rest, merge_field m ms fs fn w bs = (fs', Ok rest) -> (length rest < length bs)%nat.
Proof.
  induction 1 as [|[tag [tw mg]] ms H _ IH]; intros [|[fi x] fs] fn w bs fs' rest E; cbn in E; try congruence.
  - inversion E as [[X1 X2]]. apply rd_skip_suffix in X2. destruct X2 as (p & -> & Hp). now apply (suffix_len _ p).
  - destruct (fn =? tag).
    + destruct (merge_nested m tw mg w x bs) as [x' o] eqn:M. inversion E; subst. now apply merge_nested_consuming in M.
    + destruct (merge_field m ms fs fn w bs) as [f' o] eqn:M. inversion E; subst. eauto.
Qed.
Lemma struct_step_consuming m ms : Forall (fun p : N * (wtype * merger) => msuf (fst (snd p)) (snd (snd p))) ms ->
  consuming (struct_step m ms).
Proof.
  intros H s bs s' rest E. unfold struct_step in E. apply try_ok in E. destruct E as ([[fn w] r] & E1 & E2).
  apply rd_tag_suffix in E1. destruct E1 as (p & -> & Hp). apply merge_field_consuming in E2; [|exact H].
  rewrite app_length. lia.
Qed.
Lemma list_step_consuming m tw mg fr : msuf tw mg -> consuming (list_step m tw mg fr).
Proof.
  intros H s bs s' rest E. unfold list_step in E. destruct (merge_nested _ _ _ _ _ bs) as [x o] eqn:M.
  apply try_ok in E. destruct E as (r & -> & E2). inversion E2; subst. now apply merge_nested_consuming in M.
Qed.
Lemma map_step_consuming m k tw mg fr : msuf tw mg -> consuming (map_step m k tw mg fr).
Proof.
  intros H s bs s' rest E. unfold map_step in E.
  apply try_ok in E. destruct E as ([n r] & E1 & E). apply uv_deserialize_suffix in E1. destruct E1 as (p & -> & Hp).
  apply try_ok in E. destruct E as ([fn w] & _ & E). apply try_ok in E. destruct E as (_ & _ & E).
  apply try_ok in E. destruct E as (_ & _ & E).
  assert (L : (length rest < length r)%nat).
  { destruct (assoc fn s).
    - destruct (merge_nested _ _ _ _ _ r) as [x o] eqn:M. inversion E; subst. now apply merge_nested_consuming in M.
    - destruct (merge_nested _ _ _ _ _ r) as [x o] eqn:M. apply try_ok in E. destruct E as (r2 & -> & E2).
      inversion E2; subst. now apply merge_nested_consuming in M. }
  rewrite app_length. lia.
Qed.

Lemma fmergers_suf m fts : Forall (fun p => msuf (wty (snd p)) (merge m (snd p))) fts ->
  Forall (fun p : N * (wtype * merger) => msuf (fst (snd p)) (snd (snd p))) (fmergers m fts).
Proof.
  intros H. unfold fmergers. apply Forall_map. eapply Forall_impl; [|exact H]. intros [fi t]. exact (fun x => x).
Qed.

Lemma merge_suf m t : msuf (wty t) (merge m t).
Proof.
  induction t as [k| | | |t IH|t IH|n t IH|ts IH|k t IHk IHt|t IH|si fs IH|st vs IH|t IH|k t IH]
    using ty_ind'; intros v bs v' rest E; destruct v; try (cbn in E; congruence).
  - cbn [merge wty] in *. destruct (ikind_eqb k k0); [|congruence]. apply try_ok in E. destruct E as ([z' r] & E1 & E2).
    inversion E2; subst. unfold int_deserialize in E1.
    destruct (uv_deserialize m (ibits k) bs) as [[u r]|?| |] eqn:U; cbn in E1; try discriminate E1. inversion E1; subst.
    apply uv_deserialize_suffix in U. destruct U as (p & -> & Hp). now apply (suffix_len _ p).
  - cbn [merge wty] in *. apply try_ok in E. destruct E as ([z' r] & E1 & E2). inversion E2; subst.
    apply bool_de_loop_suffix in E1. destruct E1 as (p & -> & Hp). now apply (suffix_len _ p).
  - cbn in *. destruct (utf8_valid bs); congruence.
  - cbn [merge wty] in *. destruct (run _ o bs) as [o' r] eqn:R. inversion E; subst. now apply run_end in R.
  - cbn [merge wty] in *. destruct (run _ l bs) as [o' r] eqn:R. inversion E; subst. now apply run_end in R.
  - cbn [merge wty] in *. destruct (arr_loop _ _ _ _ l bs) as [o' r] eqn:R. inversion E; subst.
    destruct r; cbn in *; congruence.
  - cbn [merge wty] in *. apply try_ok in E. destruct E as ([z' r] & E1 & E2). congruence.
  - cbn [merge wty] in *. destruct (run _ l bs) as [o' r] eqn:R. inversion E; subst. now apply run_end in R.
  - cbn [merge wty] in *. destruct (merge m t v bs) as [x r] eqn:R. inversion E; subst. now apply IH in R.
  - rewrite merge_struct in E. cbn [wty]. destruct (run _ fs0 bs) as [o' r0] eqn:R. inversion E; subst. now apply run_end in R.
  - rewrite merge_enum in E. cbn [wty]. apply try_ok in E. destruct E as ([tag' r1] & E1 & E2).
    destruct (find_variant vs tag') as [va|]; [|congruence]. apply try_ok in E2. destruct E2 as (v1 & _ & E2).
    destruct v1; try congruence. destruct (run _ fs0 r1) as [o' r2] eqn:R. inversion E2; subst. now apply run_end in R.
  - cbn [merge wty] in *. destruct (run _ l bs) as [o' r0] eqn:R. inversion E; subst. now apply run_end in R.
  - cbn [merge wty] in *. destruct (run _ es bs) as [o' r0] eqn:R. inversion E; subst. now apply run_end in R.
Qed.

Lemma fields_suf m fts :
  Forall (fun p : N * (wtype * merger) => msuf (fst (snd p)) (snd (snd p))) (fmergers m fts).
Proof. apply fmergers_suf. apply Forall_forall. intros p _. apply merge_suf. Qed.

(** ** What is left out is the default *)

Lemma vwty_varint_nonempty t x : wt t x = true -> wty t = Varint -> enc x <> [].
Proof.
  revert x. induction t; intros x W E; try discriminate E; destruct x; try discriminate W.
  - cbn. apply leb128_nonempty.
  - cbn. discriminate.
  - cbn in *. now apply IHt.
Qed.

Lemma delimited_nonempty t x : wt t x = true -> delimited x (enc x) <> [].
Proof.
  intros W. unfold delimited. rewrite (wt_vwty t x W). destruct (wty t) eqn:E.
  - now apply (vwty_varint_nonempty t).
  - pose proof (leb128_nonempty (lenN (enc x))). destruct (leb128 (lenN (enc x))); [congruence|discriminate].
Qed.

Lemma left_out_empty x : left_out x (enc x) = true -> enc x = [] \/
  (exists k, x = VInt k 0) \/ x = VBool false.
Proof.
  destruct x as [k z|b| | | | | | | | | | | |]; cbn [left_out]; intros H;
    try (left; match goal with |- ?e = [] => destruct e; [reflexivity|discriminate H] end).
  - right. left. exists k. f_equal. lia.
  - right. right. destruct b; [discriminate H|reflexivity].
Qed.

Lemma enc_fields_cons p fs : enc_fields (p :: fs) =
  (if left_out (snd p) (enc (snd p)) then [] else enc_tagged (f_tag (fst p)) (snd p) (enc (snd p))) ++ enc_fields fs.
Proof. destruct p. reflexivity. Qed.
Lemma enc_struct c r fs : enc (VStruct c r fs) = enc_fields fs. Proof. reflexivity. Qed.
Lemma enc_enum tag c r fs : enc (VEnum tag c r fs) = leb128 tag ++ enc_fields fs. Proof. reflexivity. Qed.

Lemma enc_tagged_nonempty fn x b : enc_tagged fn x b <> [].
Proof.
  unfold enc_tagged. pose proof (leb128_nonempty (tag_num fn (vwty x))).
  destruct (leb128 _); [congruence|discriminate].
Qed.

Lemma app_eq_nil' {A} (a b : list A) : a ++ b = [] -> a = [] /\ b = [].
Proof. apply app_eq_nil. Qed.

Lemma empty_dflt t : ty_ok t = true -> forall x r, wt t x = true -> enc x = [] -> norm r x = dflt t r.
Proof.
  induction t as [k| | | |t IH|t IH|n t IH|ts IH|k t IHk IHt|t IH|si fs IH|st vs IH|t IH|k t IH]
    using ty_ind'; intros O x r W E; destruct x; try discriminate W.
  - cbn in E. now apply leb128_nonempty in E.
  - discriminate E.
  - cbn in *. now subst.
  - cbn in *. now subst.
  - destruct o as [x|]; [|reflexivity]. cbn in E, W. now apply (delimited_nonempty t) in E.
  - destruct l as [|x l]; [reflexivity|]. cbn in E, W. bprop. apply app_eq_nil' in E. destruct E as [E _].
    now apply (delimited_nonempty t) in E.
  - cbn [ty_ok wt] in *. bprop. destruct l as [|x l].
    + cbn in *. destruct n; discriminate.
    + cbn in E. cbn in H0. bprop. apply app_eq_nil' in E. destruct E as [E _]. now apply (delimited_nonempty t) in E.
  - rewrite wt_tup_eq in W. cbn [ty_ok] in O. destruct ts as [|t ts].
    + cbn in O. discriminate O.
    + destruct l as [|x l]; [discriminate W|]. cbn in W, E. bprop. apply app_eq_nil' in E. destruct E as [E _]. now apply (delimited_nonempty t) in E.
  - destruct l as [|[k' x] l]; [reflexivity|]. cbn in E, W. bprop. rewrite <- app_assoc in E. apply app_eq_nil' in E. destruct E as [E _].
    now apply (delimited_nonempty k) in E.
  - cbn in *. f_equal. now apply IH.
  - rewrite ty_ok_struct in O. bprop. rewrite wt_struct_eq in W. bprop. rewrite enc_struct in E.
    cbn [norm dflt]. f_equal.
    + apply eqb_prop in H1. now symmetry.
    + apply eqb_prop in H3. rewrite H3. now destruct r0.
    + clear - IH H H2 E. revert fs0 H2 E. induction IH as [|[fi t] fs IHt _ IHf]; intros [|[fj x] fs0] W E; try discriminate W; [reflexivity|].
      cbn [wt_fields] in W. unfold fields_ok in H. cbn [forallb] in H. bprop.
      rewrite enc_fields_cons in E. cbn [snd fst] in E. apply app_eq_nil' in E. destruct E as [E1 E2].
      apply finfo_eqb_eq in H0. subst fj.
      cbn [map]. f_equal; [|now apply IHf]. f_equal. destruct (left_out x (enc x)) eqn:L; [|now apply enc_tagged_nonempty in E1].
      cbn [snd] in IHt. apply left_out_empty in L. destruct L as [L|[(k & ->)| ->]].
      * now apply IHt.
      * destruct t; try discriminate. match goal with H : wt (TInt _) _ = true |- _ => cbn in H end. bprop.
        match goal with H : ikind_eqb _ _ = true |- _ => apply ikind_eqb_eq in H end. now subst.
      * destruct t; try discriminate. reflexivity.
  - rewrite enc_enum in E. apply app_eq_nil' in E. destruct E as [E _]. now apply leb128_nonempty in E.
  - destruct l as [|x l]; [reflexivity|]. cbn in E, W. bprop. apply app_eq_nil' in E. destruct E as [E _].
    now apply (delimited_nonempty t) in E.
  - destruct es as [|[k' x] l]; [reflexivity|]. cbn in E. apply app_eq_nil' in E. destruct E as [E _].
    now apply enc_tagged_nonempty in E.
Qed.

Lemma left_out_dflt t x r : ty_ok t = true -> wt t x = true -> left_out x (enc x) = true -> norm r x = dflt t r.
Proof.
  intros O W L. apply left_out_empty in L. destruct L as [L|[(k & ->)| ->]].
  - now apply empty_dflt.
  - destruct t; try discriminate W. cbn in W. bprop. apply ikind_eqb_eq in H. now subst.
  - destruct t; try discriminate W. reflexivity.
Qed.

(** ** Round trip *)

Fixpoint keys_fields (ts : list (finfo * ty)) (fs : list (finfo * val)) : bool :=
  match ts, fs with
  | (_, t) :: ts', (_, x) :: fs' => keys_in t x && keys_fields ts' fs'
  | _, _ => true
  end.
Lemma keys_struct si ts c r fs : keys_in (TStruct si ts) (VStruct c r fs) = keys_fields ts fs.
Proof. reflexivity. Qed.
Lemma keys_enum st vs tag c r fs : keys_in (TEnum st vs) (VEnum tag c r fs) =
  match find_variant vs tag with Some va => keys_fields (snd va) fs | None => true end.
Proof.
  unfold find_variant. cbn [keys_in]. induction vs as [|[[tg c'] ts] vs IH]; [reflexivity|].
  cbn [find fst]. destruct (tg =? tag); [reflexivity|exact IH].
Qed.
Fixpoint keys_list (ts : list ty) (l : list val) : bool :=
  match ts, l with t :: ts', x :: l' => keys_in t x && keys_list ts' l' | _, _ => true end.
Lemma keys_tup ts l : keys_in (TTup ts) (VTup l) = keys_list ts l.
Proof. reflexivity. Qed.

Definition wsafe (fs : list (finfo * val)) : bool :=
  forallb (fun p : finfo * val => let '(_, x) := p in writable x) fs &&
  forallb (fun p : finfo * val => let '(_, x) := p in ints_safe x) fs.

Definition RT (m : mode) (t : ty) : Prop := forall r v rest,
  wt t v = true -> lossless t v = true -> lenN (enc v) < 2 ^ 64 ->
  (wty t = Sized -> rest = []) ->
  merge m t (dflt t r) (enc v ++ rest) = (norm r v, Ok rest).

Lemma nested_rt m t r v rest : RT m t -> wt t v = true -> lossless t v = true -> lenN (enc v) < 2 ^ 64 ->
  merge_nested m (wty t) (merge m t) (wty t) (dflt t r) (delimited v (enc v) ++ rest) = (norm r v, Ok rest).
Proof.
  intros H W L S. unfold merge_nested, delimited. rewrite (wt_vwty t v W).
  destruct (wty t) eqn:E; cbn [wtype_eqb negb].
  - apply H; try assumption. intros X. congruence.
  - rewrite <- app_assoc, rd_nested_spec by exact S. cbn [try].
    pose proof (H r v [] W L S (fun _ => eq_refl)) as X. rewrite app_nil_r in X. now rewrite X.
Qed.

Lemma de_nested_rt m t r v rest : RT m t -> wt t v = true -> lossless t v = true -> lenN (enc v) < 2 ^ 64 ->
  de_nested m (wty t) (merge m t) (dflt t r) (delimited v (enc v) ++ rest) = Ok (norm r v, rest).
Proof. intros H W L S. unfold de_nested. now rewrite nested_rt. Qed.

Lemma lossless_and t v : lossless t v = true <-> writable v = true /\ ints_safe v = true /\ keys_in t v = true.
Proof. unfold lossless. rewrite !andb_true_iff. tauto. Qed.

Lemma delimited_len x b : lenN b <= lenN (delimited x b).
Proof. unfold delimited. destruct (vwty x); [lia|rewrite lenN_app; lia]. Qed.

Lemma merge_field_skip m A B fa fb fn w bs :
  length A = length fa -> Forall (fun p : finfo * ty => fn <> f_tag (fst p)) A ->
  merge_field m (fmergers m (A ++ B)) (fa ++ fb) fn w bs =
  let '(fb', r) := merge_field m (fmergers m B) fb fn w bs in (fa ++ fb', r).
Proof.
  revert fa. induction A as [|[fi t] A IH]; intros [|[fj x] fa] L H; try discriminate L.
  - cbn [app]. destruct (merge_field m (fmergers m B) fb fn w bs). reflexivity.
  - inversion H as [|? ? H1 H2]; subst. cbn in H1. cbn [app fmergers map merge_field].
    destruct (fn =? f_tag fi) eqn:E; [lia|]. unfold fmergers in IH. rewrite IH by (try assumption; now inversion L).
    unfold fmergers. destruct (merge_field m _ fb fn w bs). reflexivity.
Qed.

Lemma nodupb_app_tags (A : list (finfo * ty)) fi t B :
  nodupb (map (fun p => f_tag (fst p)) (A ++ (fi, t) :: B)) = true ->
  Forall (fun p : finfo * ty => f_tag fi <> f_tag (fst p)) A.
Proof.
  induction A as [|[fj u] A IH]; intros H; [constructor|].
  cbn [app map nodupb fst] in H. apply andb_true_iff in H. destruct H as [H1 H2].
  constructor; [|now apply IH]. cbn. intros E. apply negb_true_iff in H1.
  assert (X : existsb (N.eqb (f_tag fj)) (map (fun p => f_tag (fst p)) (A ++ (fi, t) :: B)) = true).
  { apply existsb_exists. exists (f_tag fi). split; [|lia]. rewrite map_app. apply in_app_iff. right. now left. }
  congruence.
Qed.

Lemma fields_rt m st r : forall B fb A fa,
  Forall (fun p => RT m (snd p)) B ->
  fields_ok st B = true -> nodupb (map (fun p => f_tag (fst p)) (A ++ B)) = true ->
  length A = length fa -> wt_fields B fb = true -> wsafe fb = true -> keys_fields B fb = true ->
  lenN (enc_fields fb) < 2 ^ 64 ->
  run (struct_step m (fmergers m (A ++ B))) (fa ++ dflt_fields r B) (enc_fields fb) =
  (fa ++ norm_fields r fb, Ok []).
Proof.
  induction B as [|[fi t] B IH]; intros [|[fj x] fb] A fa HR HO HN HL HW HS HK Hlen; try discriminate HW.
  - reflexivity.
  - inversion HR as [|? ? HR1 HR2]; subst. cbn [snd] in HR1.
    unfold fields_ok in HO. cbn [wt_fields forallb] in HW, HO. unfold wsafe in HS. cbn [forallb] in HS.
    cbn [keys_fields] in HK. bprop.
    match goal with H : finfo_eqb _ _ = true |- _ => apply finfo_eqb_eq in H; subst fj end.
    assert (EA : A ++ (fi, t) :: B = (A ++ [(fi, t)]) ++ B) by (rewrite <- app_assoc; reflexivity).
    assert (Next : run (struct_step m (fmergers m (A ++ (fi, t) :: B)))
                     ((fa ++ [(fi, norm (field_rt r fi) x)]) ++ dflt_fields r B) (enc_fields fb) =
                   (fa ++ norm_fields r ((fi, x) :: fb), Ok [])).
    { rewrite EA. rewrite IH; try assumption.
      - rewrite <- app_assoc. reflexivity.
      - rewrite EA in HN. exact HN.
      - rewrite !app_length. cbn. lia.
      - unfold wsafe. now apply andb_true_iff.
      - rewrite enc_fields_cons, lenN_app in Hlen. lia. }
    rewrite enc_fields_cons. cbn [snd fst].
    rewrite enc_fields_cons, lenN_app in Hlen. cbn [snd fst] in Hlen.
    destruct (left_out x (enc x)) eqn:L.
    + cbn [app]. rewrite <- Next. f_equal. rewrite <- app_assoc. cbn [app dflt_fields map]. f_equal. f_equal. f_equal.
      symmetry. now apply left_out_dflt.
    + rewrite run_step.
      2:{ apply struct_step_consuming, fields_suf. }
      2:{ pose proof (enc_tagged_nonempty (f_tag fi) x (enc x)). destruct (enc_tagged _ _ _); [congruence|discriminate]. }
      unfold struct_step at 1. unfold enc_tagged. rewrite <- !app_assoc.
      rewrite rd_tag_num by lia. cbn [try].
      assert (EM : merge_field m (fmergers m (A ++ (fi, t) :: B)) (fa ++ dflt_fields r ((fi, t) :: B))
                 (f_tag fi) (vwty x) (delimited x (enc x) ++ enc_fields fb) =
               ((fa ++ [(fi, norm (field_rt r fi) x)]) ++ dflt_fields r B, Ok (enc_fields fb))).
      { rewrite merge_field_skip; [|exact HL|now apply nodupb_app_tags in HN].
        cbn [fmergers map dflt_fields merge_field]. rewrite N.eqb_refl.
        rewrite (wt_vwty t x) by assumption. rewrite nested_rt; try assumption.
        - rewrite <- app_assoc. reflexivity.
        - apply lossless_and. auto.
        - unfold enc_tagged in Hlen. rewrite lenN_app in Hlen. pose proof (delimited_len x (enc x)). lia. }
      rewrite EM. cbn [try]. exact Next.
Qed.

Lemma field_rt_nostate st fs r r' : st = false -> fields_ok st fs = true ->
  dflt_fields r fs = dflt_fields r' fs.
Proof.
  intros -> H. unfold fields_ok in H. rewrite forallb_forall in H. unfold dflt_fields. apply map_ext_in.
  intros [fi t] I. specialize (H _ I). cbn in H. bprop. unfold field_rt. destruct (f_state fi); [discriminate|reflexivity].
Qed.

Lemma hash_insert_new k x l : (forall e, In e l -> veqb k (fst e) = false) -> hash_insert k x l = l ++ [(k, x)].
Proof.
  induction l as [|[k' x'] l IH]; intros H; [reflexivity|]. cbn [hash_insert].
  pose proof (H (k', x') (or_introl eq_refl)) as X. cbn [fst] in X. rewrite X. cbn. f_equal. apply IH. intros e He. apply H. now right.
Qed.
Lemma im_insert_new {A} k (x : A) l : (forall e, In e l -> fst e <> k) -> im_insert k x l = l ++ [(k, x)].
Proof.
  induction l as [|[k' x'] l IH]; intros H; [reflexivity|]. cbn [im_insert].
  pose proof (H (k', x') (or_introl eq_refl)) as X. cbn in X. destruct (k =? k') eqn:E; [lia|].
  cbn. f_equal. apply IH. intros e He. apply H. now right.
Qed.
Lemma assoc_none {A} k (l : list (N * A)) : (forall e, In e l -> fst e <> k) -> assoc k l = None.
Proof.
  induction l as [|[k' x'] l IH]; intros H; [reflexivity|]. cbn.
  pose proof (H (k', x') (or_introl eq_refl)) as X. cbn in X. destruct (k =? k') eqn:E; [lia|].
  apply IH. intros e He. apply H. now right.
Qed.

Lemma norm_items_app r i a b : norm_items r i (a ++ b) = norm_items r i a ++ norm_items r (i + lenN a) b.
Proof.
  revert i. induction a as [|x a IH]; intros i.
  - cbn. f_equal. unfold lenN. cbn. lia.
  - cbn [app norm_items]. rewrite IH. do 3 f_equal. unfold lenN. cbn [length]. lia.
Qed.
Lemma norm_items_len r i l : length (norm_items r i l) = length l.
Proof. revert i. induction l as [|x l IH]; intros i; [reflexivity|]. cbn. now rewrite IH. Qed.

Lemma enc_items_cons x l : flat_map (fun x => delimited x (enc x)) (x :: l) =
  delimited x (enc x) ++ flat_map (fun x => delimited x (enc x)) l.
Proof. reflexivity. Qed.

Lemma vec_rt m t : RT m t -> forall l pre, forallb (wt t) l = true ->
  forallb writable l = true -> forallb ints_safe l = true -> forallb (keys_in t) l = true ->
  lenN (flat_map (fun x => delimited x (enc x)) l) < 2 ^ 64 ->
  run (vec_step m (wty t) (merge m t) (dflt t rt_default)) pre (flat_map (fun x => delimited x (enc x)) l) =
  (pre ++ map (norm rt_default) l, Ok []).
Proof.
  intros H. induction l as [|x l IH]; intros pre W S1 S2 K L.
  - cbn. now rewrite app_nil_r.
  - rewrite enc_items_cons in *. rewrite lenN_app in L. cbn [forallb] in *. bprop.
    rewrite run_step; [|apply vec_step_consuming, merge_suf|].
    + unfold vec_step at 1. rewrite de_nested_rt; try assumption.
      * cbn [try]. rewrite IH; try assumption; [|lia]. rewrite <- app_assoc. reflexivity.
      * now apply lossless_and.
      * pose proof (delimited_len x (enc x)). lia.
    + pose proof (delimited_nonempty t x ltac:(assumption)). destruct (delimited _ _); [congruence|discriminate].
Qed.

Lemma list_rt m t r : RT m t -> forall l pre, forallb (wt t) l = true ->
  forallb writable l = true -> forallb ints_safe l = true -> forallb (keys_in t) l = true ->
  lenN (flat_map (fun x => delimited x (enc x)) l) < 2 ^ 64 ->
  run (list_step m (wty t) (merge m t) (fun i => dflt t (nested r i))) pre (flat_map (fun x => delimited x (enc x)) l) =
  (pre ++ norm_items r (lenN pre) l, Ok []).
Proof.
  intros H. induction l as [|x l IH]; intros pre W S1 S2 K L.
  - cbn. now rewrite app_nil_r.
  - rewrite enc_items_cons in *. rewrite lenN_app in L. cbn [forallb] in *. bprop.
    rewrite run_step; [|apply list_step_consuming, merge_suf|].
    + unfold list_step at 1. rewrite nested_rt; try assumption.
      * cbn [try]. rewrite IH; try assumption; [|lia]. rewrite <- app_assoc. cbn [app norm_items].
        do 4 f_equal. unfold lenN. rewrite app_length. cbn. lia.
      * now apply lossless_and.
      * pose proof (delimited_len x (enc x)). lia.
    + pose proof (delimited_nonempty t x ltac:(assumption)). destruct (delimited _ _); [congruence|discriminate].
Qed.

Lemma arr_rt m t : RT m t -> forall l, forallb (wt t) l = true ->
  forallb writable l = true -> forallb ints_safe l = true -> forallb (keys_in t) l = true ->
  lenN (flat_map (fun x => delimited x (enc x)) l) < 2 ^ 64 -> forall old, length old = length l ->
  arr_loop m (wty t) (merge m t) (dflt t rt_default) old (flat_map (fun x => delimited x (enc x)) l) =
  (map (norm rt_default) l, Ok []).
Proof.
  intros H. induction l as [|x l IH]; intros W S1 S2 K L [|y old] E; try discriminate E.
  - reflexivity.
  - rewrite enc_items_cons in *. rewrite lenN_app in L. cbn [forallb] in *. bprop.
    pose proof (delimited_nonempty t x ltac:(assumption)) as NE.
    assert (EQ1 : arr_loop m (wty t) (merge m t) (dflt t rt_default) (y :: old)
       (delimited x (enc x) ++ flat_map (fun x0 => delimited x0 (enc x0)) l) =
       try (y :: old) (de_nested m (wty t) (merge m t) (dflt t rt_default)
             (delimited x (enc x) ++ flat_map (fun x0 => delimited x0 (enc x0)) l)) (fun '(y, rest) =>
        let '(l'', r) := arr_loop m (wty t) (merge m t) (dflt t rt_default) old rest in (y :: l'', r))).
    { cbn [arr_loop]. destruct (delimited x (enc x)); [congruence|reflexivity]. }
    rewrite EQ1. rewrite de_nested_rt; try assumption.
    + cbn [try]. rewrite IH; try assumption; [reflexivity|lia|now inversion E].
    + now apply lossless_and.
    + pose proof (delimited_len x (enc x)). lia.
Qed.

Lemma tup_rt m ts : Forall (RT m) ts -> forall l rest, wt_list ts l = true ->
  forallb writable l = true -> forallb ints_safe l = true -> keys_list ts l = true ->
  lenN (flat_map (fun x => delimited x (enc x)) l) < 2 ^ 64 ->
  tup_read m (map (fun t => ((wty t, merge m t), dflt t rt_default)) ts)
    (flat_map (fun x => delimited x (enc x)) l ++ rest) = Ok (map (norm rt_default) l, rest).
Proof.
  induction 1 as [|t ts H _ IH]; intros [|x l] rest W S1 S2 K L; try discriminate W; [reflexivity|].
  rewrite enc_items_cons in *. rewrite lenN_app in L. cbn [forallb wt_list keys_list] in *. bprop.
  cbn [map tup_read]. rewrite <- app_assoc. rewrite de_nested_rt; try assumption.
  - cbn [bind]. rewrite IH; try assumption; [reflexivity|lia].
  - now apply lossless_and.
  - pose proof (delimited_len x (enc x)). lia.
Qed.

Lemma hash_rt m kt vt : RT m kt -> RT m vt -> forall l pre,
  forallb (fun e : val * val => wt kt (fst e) && wt vt (snd e)) l = true ->
  forallb (fun e : val * val => wt kt (fst e) && wt vt (snd e)) pre = true ->
  hkeys_distinct (pre ++ l) = true ->
  forallb (fun e : val * val => let '(k, x) := e in writable k && writable x) l = true ->
  forallb (fun e : val * val => let '(k, x) := e in ints_safe k && ints_safe x) l = true ->
  forallb (fun e : val * val => keys_in kt (fst e) && keys_in vt (snd e)) l = true ->
  let en := flat_map (fun e : val * val => let '(k, x) := e in delimited k (enc k) ++ delimited x (enc x)) in
  let nm := map (fun e : val * val => let '(k, x) := e in (norm rt_default k, norm rt_default x)) in
  lenN (en l) < 2 ^ 64 ->
  run (hash_step m (wty kt) (merge m kt) (dflt kt rt_default) (wty vt) (merge m vt) (dflt vt rt_default))
    (nm pre) (en l) = (nm (pre ++ l), Ok []).
Proof.
  intros Hk Hv. induction l as [|[k x] l IH]; intros pre W Wp D S1 S2 K en nm L.
  - cbn. now rewrite app_nil_r.
  - assert (EE : en ((k, x) :: l) = delimited k (enc k) ++ delimited x (enc x) ++ en l) by (cbn; now rewrite <- app_assoc).
    rewrite EE in *. rewrite !lenN_app in L. cbn [forallb fst snd] in *. bprop.
    rewrite run_step; [|apply hash_step_consuming; apply merge_suf|].
    + unfold hash_step at 1. rewrite de_nested_rt; try assumption.
      * cbn [try]. rewrite de_nested_rt; try assumption.
        -- cbn [try]. rewrite hash_insert_new.
           ++ assert (EN : nm pre ++ [(norm rt_default k, norm rt_default x)] = nm (pre ++ [(k, x)])) by (unfold nm; rewrite map_app; reflexivity).
              rewrite EN. unfold en, nm. rewrite IH; try assumption.
              ** rewrite <- app_assoc. reflexivity.
              ** rewrite forallb_app. cbn. rewrite Wp, !andb_true_iff. auto.
              ** rewrite <- app_assoc. exact D.
              ** fold en. lia.
           ++ intros e He. unfold nm in He. apply in_map_iff in He. destruct He as ([k' x'] & <- & He). cbn [fst].
              rewrite veqb_norm. apply not_true_is_false. intros X.
              destruct (veqb_equiv kt) as (_ & Sy & _).
              assert (Wk' : wt kt k' = true) by (rewrite forallb_forall in Wp; specialize (Wp _ He); now bprop).
              apply Sy in X; try assumption.
              apply in_split in He. destruct He as (a & b & ->). clear - D X.
              rewrite <- app_assoc in D. induction a as [|[q y] a IHa]; cbn [app hkeys_distinct] in D; bprop; [|auto].
              apply negb_true_iff in H. assert (existsb (fun e => veqb k' (fst e)) (b ++ (k, x) :: l) = true).
              { apply existsb_exists. exists (k, x). split; [|exact X]. apply in_app_iff. right. now left. }
              congruence.
        -- now apply lossless_and.
        -- pose proof (delimited_len x (enc x)). lia.
      * now apply lossless_and.
      * pose proof (delimited_len k (enc k)). lia.
    + pose proof (delimited_nonempty kt k ltac:(assumption)). destruct (delimited k _); [congruence|discriminate].
Qed.

Lemma map_rt m kk t r : RT m t -> forall l pre,
  forallb (fun e : N * val => (fst e <? 2 ^ 32) && wt t (snd e)) l = true ->
  nodupb (map fst (pre ++ l)) = true ->
  forallb (fun e : N * val => let '(k, x) := e in (k <=? FIELD_NUMBER_MAX) && writable x) l = true ->
  forallb (fun e : N * val => let '(_, x) := e in ints_safe x) l = true ->
  forallb (fun e : N * val => (fst e <=? mkey_max kk) && keys_in t (snd e)) l = true ->
  let en := flat_map (fun e : N * val => let '(k, x) := e in enc_tagged k x (enc x)) in
  let nm := map (fun e : N * val => let '(k, x) := e in (k, norm (nested r k) x)) in
  lenN (en l) < 2 ^ 64 ->
  run (map_step m kk (wty t) (merge m t) (fun i => dflt t (nested r i))) (nm pre) (en l) = (nm (pre ++ l), Ok []).
Proof.
  intros Hv. induction l as [|[k x] l IH]; intros pre W D S1 S2 K en nm L.
  - cbn. now rewrite app_nil_r.
  - assert (EE : en ((k, x) :: l) = leb128 (tag_num k (vwty x)) ++ delimited x (enc x) ++ en l).
    { cbn. unfold enc_tagged. now rewrite <- app_assoc. }
    rewrite EE in *. rewrite !lenN_app in L. cbn [forallb fst snd] in *. bprop.
    assert (New : forall e, In e (nm pre) -> fst e <> k).
    { intros e He. unfold nm in He. apply in_map_iff in He. destruct He as ([k' x'] & <- & He). cbn [fst]. intros ->.
      apply in_split in He. destruct He as (a & b & ->). clear - D. rewrite nodup_mdistinct in D.
      rewrite <- app_assoc in D. induction a as [|[q y] a IHa]; cbn [app mdistinct] in D; bprop; [|auto].
      apply negb_true_iff in H. assert (existsb (fun e => k =? fst e) (b ++ (k, x) :: l) = true).
      { apply existsb_exists. exists (k, x). split; [|cbn; lia]. apply in_app_iff. right. now left. }
      congruence. }
    rewrite run_step; [|apply map_step_consuming; apply merge_suf|].
    + unfold map_step at 1. rewrite uv_deserialize_leb; [|reflexivity|apply tag_num_bound; lia]. cbn [try].
      rewrite parse_tag_num by lia. cbn [try]. unfold validate_field_number.
      destruct (FIELD_NUMBER_MAX <? k) eqn:E1; [lia|]. cbn [try]. unfold key_of_fn. rewrite H. cbn [try].
      rewrite assoc_none by exact New. rewrite nested_rt; try assumption.
      * cbn [try]. rewrite im_insert_new by exact New.
        assert (EN : nm pre ++ [(k, norm (nested r k) x)] = nm (pre ++ [(k, x)])) by (unfold nm; rewrite map_app; reflexivity).
        rewrite EN. unfold en, nm. rewrite IH; try assumption.
        -- rewrite <- app_assoc. reflexivity.
        -- rewrite <- app_assoc. exact D.
        -- fold en. lia.
      * now apply lossless_and.
      * pose proof (delimited_len x (enc x)). lia.
    + pose proof (leb128_nonempty (tag_num k (vwty x))). destruct (leb128 _); [congruence|discriminate].
Qed.

Lemma opt_rt m t r x : RT m t -> wt t x = true -> lossless t x = true -> lenN (enc x) < 2 ^ 64 ->
  run (opt_step m (wty t) (merge m t) (dflt t r)) None (delimited x (enc x)) = (Some (norm r x), Ok []).
Proof.
  intros H W L S. rewrite run_step; [|apply opt_step_consuming, merge_suf|now apply (delimited_nonempty t)].
  unfold opt_step at 1. pose proof (nested_rt m t r x [] H W L S) as X. rewrite app_nil_r in X. now rewrite X.
Qed.

Theorem roundtrip m t : ty_ok t = true -> RT m t.
Proof.
  induction t as [k| | | |t IH|t IH|n t IH|ts IH|k t IHk IHt|t IH|si fs IH|st vs IH|t IH|k t IH]
    using ty_ind'; intros O r v rest W LS Hlen Hrest; pose proof LS as LS'; apply lossless_and in LS'; destruct LS' as (S1 & S2 & K);
    destruct v; try discriminate W; try (specialize (Hrest eq_refl); subst rest; rewrite app_nil_r).
  - cbn [wt] in W. bprop. cbn [merge dflt enc norm]. apply ikind_eqb_eq in H. subst k0.
    replace (ikind_eqb k k) with true by (destruct k; reflexivity).
    rewrite int_roundtrip by assumption. cbn [try]. rewrite int_back_safe by exact S2. reflexivity.
  - cbn [merge dflt enc norm]. change [if b then 1 else 0] with (bool_serialize b). rewrite (bool_roundtrip b rest). reflexivity.
  - cbn in *. bprop. now rewrite H0.
  - reflexivity.
  - destruct o as [x|]; [|reflexivity]. cbn [wt ty_ok enc dflt merge norm] in *.
    rewrite opt_rt; try assumption; try (now apply IH); [reflexivity|].
    pose proof (delimited_len x (enc x)). lia.
  - cbn [wt ty_ok enc dflt merge norm writable ints_safe keys_in] in *.
    rewrite (vec_rt m t (IH O)) by assumption. reflexivity.
  - cbn [wt ty_ok enc dflt merge norm writable ints_safe keys_in] in *. bprop.
    rewrite (arr_rt m t (IH ltac:(assumption))); try assumption; [reflexivity|].
    rewrite repeat_length. lia.
  - rewrite wt_tup_eq in W. rewrite keys_tup in K. cbn [enc dflt merge norm writable ints_safe] in *.
    assert (O' : forallb ty_ok ts = true) by (cbn in O; bprop; assumption).
    apply forallb_Forall in O'. pose proof (Forall_mp _ _ _ IH O') as G.
    pose proof (tup_rt m ts G l [] W S1 S2 K Hlen) as X. rewrite app_nil_r in X. now rewrite X.
  - cbn [wt ty_ok enc dflt merge norm writable ints_safe keys_in] in *. bprop.
    pose proof (hash_rt m k t (IHk ltac:(assumption)) (IHt ltac:(assumption)) l []) as X. cbn [map app] in X.
    rewrite X; try assumption; reflexivity.
  - cbn [wt ty_ok enc dflt merge norm writable ints_safe keys_in wty] in *.
    rewrite IH; try assumption; reflexivity.
  - rewrite ty_ok_struct in O. bprop. rewrite wt_struct_eq in W. bprop. rewrite keys_struct in K.
    cbn [dflt]. rewrite merge_struct, enc_struct. change (map _ fs) with (dflt_fields r fs).
    pose proof (Forall_mp _ _ _ IH (fields_tys _ _ H)) as G.
    pose proof (fields_rt m (s_state si) r fs fs0 [] []) as X. cbn [app] in X. rewrite X; try assumption.
    + cbn [norm]. apply eqb_prop in H1, H3. rewrite H1, H3. f_equal. f_equal. now destruct r0.
    + reflexivity.
    + unfold wsafe. now apply andb_true_iff.
  - rewrite wt_enum_eq in W. rewrite keys_enum in K. bprop.
    destruct (find_variant vs tag) as [[[tg c'] ts]|] eqn:F; [|discriminate]. bprop.
    pose proof (find_variant_in _ _ _ F) as [Iv Ev]. cbn in Ev. subst tg.
    pose proof (variant_fields_ok st vs _ O Iv) as (FM & FO & FN). cbn [fst snd] in *.
    assert (G : Forall (fun p => RT m (snd p)) ts).
    { rewrite Forall_forall in IH. specialize (IH _ Iv). exact (Forall_mp _ _ _ IH (fields_tys _ _ FO)). }
    rewrite dflt_enum. pose proof O as O'. rewrite ty_ok_enum in O'. bprop.
    match goal with X : existsb _ vs = true |- _ => destruct (find_variant_exists vs X) as ([[tg0 c0] ts0] & F0) end.
    rewrite F0. pose proof (find_variant_in _ _ _ F0) as [_ Ev0]. cbn in Ev0. subst tg0.
    unfold variant_ctor. rewrite merge_enum, enc_enum.
    rewrite uv_deserialize_leb; [|reflexivity|unfold FIELD_NUMBER_MAX in FM; change (2 ^ 32) with 4294967296; lia].
    cbn [try]. rewrite F.
    assert (D : forall r', (st = true -> r' = nested r tag) ->
       (if 0 =? tag then Ok (VEnum 0 c0 (if st then Some (nested r 0) else None) (dflt_fields (nested r 0) ts0))
        else do p <- enum_parent (if st then Some (nested r 0) else None); Ok (variant_ctor st ((tag, c'), ts) p)) =
       Ok (VEnum tag c' (if st then Some (nested r tag) else None) (dflt_fields (nested r tag) ts))).
    { intros r' _. destruct (0 =? tag) eqn:Z.
      - assert (tag = 0) by lia. subst tag. rewrite F0 in F. inversion F; subst. reflexivity.
      - destruct st; cbn [enum_parent nested bind rt_path rt_log].
        + destruct r as [lg p]. reflexivity.
        + unfold variant_ctor. do 2 f_equal. now apply (field_rt_nostate false). }
    rewrite (D (nested r tag) (fun _ => eq_refl)). cbn [try snd].
    rewrite enc_enum, lenN_app in Hlen.
    pose proof (fields_rt m st (nested r tag) ts fs [] []) as X. cbn [app] in X. rewrite X; try assumption.
    + cbn [norm]. apply eqb_prop in H, H0. rewrite H0. subst st. f_equal. f_equal. now destruct r0.
    + reflexivity.
    + unfold wsafe. now apply andb_true_iff.
    + lia.
  - cbn [ty_ok wt enc dflt merge writable ints_safe keys_in] in *. bprop. rewrite norm_list.
    rewrite (list_rt m t r (IH ltac:(assumption))) by assumption. reflexivity.
  - cbn [ty_ok wt enc dflt merge norm writable ints_safe keys_in] in *. bprop.
    pose proof (map_rt m k t r (IH ltac:(assumption)) es []) as X. cbn [map app] in X.
    rewrite X; try assumption; reflexivity.
Qed.
