(** The C# client: proofs. *)
From Verif Require Import Base Varint WireFmt Utf8 Types Ser Spec De Log State StateSpec CSharp ValInd VarintProofs WireProofs
  SerProofs TypeProofs EqProofs DeProofs RoundTrip NormProofs LogProofs TreeProofs CohProofs HandleProofs OpProofs ExecProofs ReplayProofs.

(** ** Integers *)

Definition cres {A} (r : res A) : res A := match r with Err _ => Panic | r => r end.

Lemma c_varint_rust bs : forall off v, c_varint bs off v = cres (uv_de_loop Release 64 v off bs).
Proof.
  induction bs as [|b bs IH]; intros off v; [reflexivity|]. cbn [c_varint uv_de_loop].
  destruct (off <? 64) eqn:E; [rewrite (N.mod_small off) by lia|]; destruct (N.land b 128 =? 0); auto.
Qed.
Lemma c_unsigned_rust bs : c_unsigned bs = cres (uv_deserialize Release 64 bs).
Proof. apply c_varint_rust. Qed.
Lemma c_unsigned_leb n rest : n < 2 ^ 64 -> c_unsigned (leb128 n ++ rest) = Ok (n, rest).
Proof. intros H. rewrite c_unsigned_rust, uv_deserialize_leb by (lia || exact H). reflexivity. Qed.

Ltac zpow := repeat match goal with
  | H : context [(2 ^ Z.of_N ?e)%Z] |- _ => let x := eval vm_compute in (2 ^ Z.of_N e)%Z in change (2 ^ Z.of_N e)%Z with x in H
  | H : context [(2 ^ (Z.of_N ?e - ?d))%Z] |- _ => let x := eval vm_compute in (2 ^ (Z.of_N e - d))%Z in change (2 ^ (Z.of_N e - d))%Z with x in H
  | |- context [(2 ^ Z.of_N ?e)%Z] => let x := eval vm_compute in (2 ^ Z.of_N e)%Z in change (2 ^ Z.of_N e)%Z with x
  | |- context [(2 ^ (Z.of_N ?e - ?d))%Z] => let x := eval vm_compute in (2 ^ (Z.of_N e - d))%Z in change (2 ^ (Z.of_N e - d))%Z with x
  end.

Lemma c_int_spec k z rest : in_range k z = true ->
  c_int k (leb128 (wire_num k z) ++ rest) = Ok (if cint_safe k z then z else int_back k z, rest).
Proof.
  intros H. unfold c_int. rewrite c_unsigned_leb.
  2:{ pose proof (zigzag_bound k z H). pose proof (N.pow_le_mono_r 2 (ibits k) 64 ltac:(lia) ltac:(destruct k; cbn; lia)). lia. }
  cbn [bind]. unfold wire_num. destruct (isigned k) eqn:Es.
  - assert (R : in_range I64 z = true) by (clear - H Es; unfold in_range in *; destruct k; try discriminate; cbn [isigned ibits] in *; zpow; lia).
    pose proof (zigzag_decode I64 z eq_refl R) as D. cbn [ibits] in D. unfold as_signed, zz_decode in D.
    unfold c_unzigzag. cbv zeta in *. rewrite D. clear D.
    do 2 f_equal. unfold cint_safe, int_back, int_safe, in_range, swrap in *. destruct k; try discriminate; cbn [isigned ibits] in *; zpow;
      rewrite ?H; repeat match goal with |- context [if ?b then _ else _] => destruct b eqn:? end; try lia.
  - unfold in_range in H. rewrite Es in H.
    rewrite N.mod_small by (apply N2Z.inj_lt; rewrite N2Z.inj_pow; change (Z.of_N 2) with 2%Z; lia).
    rewrite Z2N.id by lia. do 2 f_equal.
    assert (cint_safe k z = true) as ->; [|reflexivity]. unfold cint_safe, in_range; rewrite Es; destruct k; try discriminate; exact H.
Qed.

(** ** Reading what the Rust side writes *)

Lemma c_key_num fn w rest : fn <= FIELD_NUMBER_MAX -> c_key (leb128 (tag_num fn w) ++ rest) = Ok (fn, w, rest).
Proof.
  intros H. pose proof (tag_num_bound fn w H) as B. unfold c_key. rewrite c_unsigned_leb.
  2:{ change (2 ^ 32) with 4294967296 in B. change (2 ^ 64) with 18446744073709551616. lia. }
  cbn [bind]. rewrite N.mod_small by exact B. cbv zeta.
  change 7 with (N.ones 3). rewrite N.land_ones, N.shiftr_div_pow2. change (2 ^ 3) with 8. unfold tag_num.
  destruct w.
  - replace (8 * fn + 0) with (fn * 8) by lia. now rewrite N.mod_mul, N.div_mul by lia.
  - replace (8 * fn + 2) with (2 + fn * 8) by lia. rewrite N.mod_add, N.div_add by lia. reflexivity.
Qed.

Lemma c_nested_spec b rest : lenN b < 2 ^ 31 -> c_nested (leb128 (lenN b) ++ b ++ rest) = Ok (b, rest).
Proof.
  intros H. unfold c_nested. change (2 ^ 31) with 2147483648 in *. rewrite c_unsigned_leb by (change (2 ^ 64) with 18446744073709551616; lia).
  cbn [bind]. rewrite N.mod_small by (change (2 ^ 32) with 4294967296; lia). cbv zeta.
  destruct (2147483648 <=? lenN b) eqn:E; [lia|]. rewrite lenN_app. destruct (lenN b + lenN rest <? lenN b) eqn:F; [lia|]. cbn [orb].
  now rewrite splitN_app.
Qed.

(** ** Unfolded forms *)

Fixpoint looks_fields (fs : list (finfo * val)) (xs : list (N * cval)) : bool :=
  match fs, xs with
  | [], [] => true
  | (fi, x) :: fs', (tag, y) :: xs' => (f_tag fi =? tag) && looks x y && looks_fields fs' xs'
  | _, _ => false
  end.
Fixpoint looks_items (l : list val) (l' : list cval) : bool :=
  match l, l' with
  | [], [] => true
  | x :: r, y :: r' => looks x y && looks_items r r'
  | _, _ => false
  end.
Definition looks_map (es : list (N * val)) (es' : list (N * cval)) : bool :=
  Nat.eqb (length es) (length es') && nodupb (map fst es') &&
  forallb (fun e : N * val => let '(k, x) := e in match assoc k es' with Some y => looks x y | None => false end) es.
Lemma looks_struct c r fs xs : looks (VStruct c r fs) (CVStruct xs) = looks_fields fs xs. Proof. reflexivity. Qed.
Lemma looks_enum tag c r fs tag' xs : looks (VEnum tag c r fs) (CVEnum tag' xs) = (tag =? tag') && looks_fields fs xs. Proof. reflexivity. Qed.
Lemma looks_vec l l' : looks (VVec l) (CVVec l') = looks_items l l'. Proof. reflexivity. Qed.
Lemma looks_arr l l' : looks (VArr l) (CVVec l') = looks_items l l'. Proof. reflexivity. Qed.
Lemma looks_list r l l' : looks (VList r l) (CVList l') = looks_items l l'. Proof. reflexivity. Qed.
Lemma looks_map_eq r es es' : looks (VMap r es) (CVMap es') = looks_map es es'. Proof. reflexivity. Qed.

Fixpoint cls_variants (vs : list variant) (cvs : list (N * list (N * (bool * cty)))) : bool :=
  match vs, cvs with
  | [], [] => true
  | ((tag, _), fts) :: vs', (tag', cfs) :: cvs' => (tag =? tag') && cls_fields fts cfs && cls_variants vs' cvs'
  | _, _ => false
  end.
Lemma cls_struct si fts cfs : cls (TStruct si fts) (CStruct cfs) = cls_fields fts cfs. Proof. reflexivity. Qed.
Lemma cls_enum st vs cvs : cls (TEnum st vs) (CEnum cvs) = cls_variants vs cvs. Proof. reflexivity. Qed.

Definition cls_ok_fields (fs : list (N * (bool * cty))) : bool :=
  forallb (fun f : N * (bool * cty) => let '(_, (g, c)) := f in
    cls_ok c && (negb g || (c_constructible c && match c with CStr => false | _ => true end))) fs.

Lemma c_new_struct fs : c_new (CStruct fs) = do xs <- c_new_fields fs; Ok (CVStruct xs). Proof. reflexivity. Qed.
Lemma c_new_enum vs : c_new (CEnum vs) =
  match assoc 0 vs with Some fs => do xs <- c_new_fields fs; Ok (CVEnum 0 xs) | None => NoFuel end.
Proof.
  cbn [c_new]. induction vs as [|[tag fs] vs IH]; [reflexivity|]. cbn [assoc]. rewrite (N.eqb_sym 0 tag).
  destruct (tag =? 0) eqn:E; [|exact IH]. apply N.eqb_eq in E. subst. reflexivity.
Qed.
Lemma c_deser_struct fs bs : c_deser (CStruct fs) bs =
  do xs <- c_new_fields fs; do xs <- crun (c_struct_step (c_readers fs)) xs bs; Ok (CVStruct xs, []).
Proof. reflexivity. Qed.
Lemma c_deser_enum vs bs : c_deser (CEnum vs) bs =
  do d <- c_new (CEnum vs); do (tag, rest) <- c_int U32 bs;
  match assoc (Z.to_N tag) vs with
  | None => Ok (d, [])
  | Some fs => do xs <- c_new_fields fs; do xs <- crun (c_struct_step (c_readers fs)) xs rest; Ok (CVEnum (Z.to_N tag) xs, [])
  end.
Proof.
  cbn [c_deser]. apply bind_ext. intros d. apply bind_ext. intros [tag rest]. change (CEnum vs) with (CEnum vs). clear.
  induction vs as [|[tag' fs] vs IH]; [reflexivity|]. cbn [assoc]. rewrite (N.eqb_sym (Z.to_N tag) tag').
  destruct (tag' =? Z.to_N tag) eqn:E; [|exact IH]. apply N.eqb_eq in E. subst. reflexivity.
Qed.

Lemma cls_find vs : forall cvs tag va, cls_variants vs cvs = true -> find_variant vs tag = Some va ->
  exists cfs, assoc tag cvs = Some cfs /\ cls_fields (snd va) cfs = true.
Proof.
  unfold find_variant. induction vs as [|[[tg c] fts] vs IH]; intros [|[tag' cfs] cvs] tag va C F; try discriminate C; [discriminate F|].
  cbn [cls_variants] in C. bprop. cbn [find fst assoc] in *. match goal with H : (tg =? tag') = true |- _ => apply N.eqb_eq in H; subst tag' end.
  rewrite (N.eqb_sym tag tg). destruct (tg =? tag).
  - injection F as <-. eauto.
  - eauto.
Qed.

(** ** New objects *)

Definition cnew (t : ty) : Prop := forall c, ty_ok t = true -> cls t c = true -> cls_ok c = true -> exists w, c_new c = Ok w.

Lemma new_fields st fts : Forall (fun p => cnew (snd p)) fts -> fields_ok st fts = true -> forall cfs, cls_fields fts cfs = true ->
  cls_ok_fields cfs = true -> exists xs, c_new_fields cfs = Ok xs /\ map fst xs = map fst cfs.
Proof.
  induction 1 as [|[fi t] fts H _ IH]; intros O [|[tag [g c]] cfs] C K; try discriminate C; [now exists []|].
  unfold cls_ok_fields, fields_ok in *. cbn [cls_fields forallb c_new_fields snd] in *. bprop.
  destruct (H c) as (w & E); try assumption. destruct (IH ltac:(assumption) cfs) as (xs & Ex & M); try assumption.
  assert (G : g && negb (c_constructible c) = false) by (destruct g, (c_constructible c); try reflexivity; discriminate).
  rewrite G, E. cbn [bind]. rewrite Ex. cbn [bind]. eexists. split; [reflexivity|]. cbn. now rewrite M.
Qed.

Lemma c_new_ok t : cnew t.
Proof.
  induction t as [k| | | |t IH|t IH|n t IH|ts IH|k t IHk IHt|t IH|si fs IH|st vs IH|t IH|k t IH] using ty_ind';
    intros c O C K; try (destruct c; discriminate C || (eexists; reflexivity)).
  - now apply IH.
  - destruct c; try discriminate C. rewrite ty_ok_struct in O. bprop. rewrite cls_struct in C.
    destruct (new_fields (s_state si) fs IH ltac:(assumption) fs0 C K) as (xs & E & _). rewrite c_new_struct, E. eexists. reflexivity.
  - destruct c; try discriminate C. rewrite cls_enum in C. pose proof O as O'. rewrite ty_ok_enum in O'. bprop.
    destruct (find_variant_exists vs ltac:(assumption)) as (va & F). destruct (cls_find vs _ _ _ C F) as (cfs & A & Cf).
    pose proof (find_variant_in _ _ _ F) as [I _]. pose proof (variant_fields_ok _ _ _ O I) as (_ & Of & _).
    rewrite Forall_forall in IH. destruct (new_fields st (snd va) (IH _ I) Of cfs Cf) as (xs & E & _).
    { cbn [cls_ok] in K. rewrite forallb_forall in K. exact (K _ (assoc_in _ _ _ A)). }
    rewrite c_new_enum, A, E. eexists. reflexivity.
Qed.

Definition cempty (t : ty) : Prop := forall c v, ty_ok t = true -> cls t c = true -> cls_ok c = true -> wt t v = true -> enc v = [] ->
  exists w, c_new c = Ok w /\ looks v w = true.

Lemma new_left_out t c v : cempty t -> ty_ok t = true -> cls t c = true -> cls_ok c = true -> wt t v = true -> left_out v (enc v) = true ->
  exists w, c_new c = Ok w /\ looks v w = true.
Proof.
  intros H O C K W L. apply left_out_empty in L. destruct L as [L|[(k & ->)| ->]].
  - now apply H.
  - destruct t; try discriminate W. destruct c; try discriminate C. eexists. split; reflexivity.
  - destruct t; try discriminate W. destruct c; try discriminate C. eexists. split; reflexivity.
Qed.

Lemma c_new_empty t : cempty t.
Proof.
  induction t as [k| | | |t IH|t IH|n t IH|ts IH|k t IHk IHt|t IH|si fs IH|st vs IH|t IH|k t IH] using ty_ind';
    intros c v O C K W E; destruct v as [| | | |o|l|l|l|l|v|cc r fs0|tag cc r fs0|r l|r es]; try discriminate W.
  - cbn in E. now apply leb128_nonempty in E.
  - discriminate E.
  - cbn in E. subst. destruct c; try discriminate C. eexists. split; reflexivity.
  - cbn in E. subst. destruct c; try discriminate C. eexists. split; reflexivity.
  - destruct o as [x|]; [cbn in E, W; now apply (delimited_nonempty t) in E|]. destruct c; try discriminate C. eexists. split; reflexivity.
  - destruct l as [|x l]; [|cbn in E, W; bprop; apply app_eq_nil' in E; destruct E as [E _]; now apply (delimited_nonempty t) in E].
    destruct c; try discriminate C. eexists. split; reflexivity.
  - cbn [ty_ok wt] in *. bprop. destruct l as [|x l].
    + cbn in *. destruct n; discriminate.
    + cbn in E. cbn in H0. bprop. apply app_eq_nil' in E. destruct E as [E _]. now apply (delimited_nonempty t) in E.
  - destruct c; discriminate C.
  - destruct c; discriminate C.
  - cbn in W, E, O. exact (IH c v O C K W E).
  - destruct c; try discriminate C. rewrite ty_ok_struct in O. rewrite wt_struct_eq in W. bprop. rewrite cls_struct in C. rewrite c_new_struct.
    rewrite enc_struct in E. change (cls_ok (CStruct fs1)) with (cls_ok_fields fs1) in K.
    enough (G : exists xs, c_new_fields fs1 = Ok xs /\ looks_fields fs0 xs = true) by (destruct G as (xs & -> & G); eexists; split; [reflexivity|exact G]).
    match goal with H : wt_fields _ _ = true, O : fields_ok _ _ = true |- _ => revert fs0 fs1 C K H E O end. clear - IH.
    induction IH as [|[fi t] fs H _ IH]; intros [|[fj x] fs0] [|[tag [g c]] cfs] C K W E O; try discriminate C; try discriminate W; [now exists []|].
    unfold cls_ok_fields, fields_ok in *. cbn [cls_fields forallb c_new_fields wt_fields snd] in *. bprop.
    rewrite enc_fields_cons in E. cbn [snd fst] in E. apply app_eq_nil' in E. destruct E as [E1 E2].
    match goal with X : finfo_eqb _ _ = true |- _ => apply finfo_eqb_eq in X; subst fj end.
    destruct (left_out x (enc x)) eqn:L; [|now apply enc_tagged_nonempty in E1].
    destruct (new_left_out t c x H) as (w & Ew & Lw); try assumption. destruct (IH fs0 cfs) as (xs & Ex & M); try assumption.
    assert (G : g && negb (c_constructible c) = false) by (destruct g, (c_constructible c); try reflexivity; discriminate).
    rewrite G, Ew. cbn [bind]. rewrite Ex. cbn [bind]. eexists. split; [reflexivity|]. cbn [looks_fields]. rewrite Lw, M.
    match goal with X : (f_tag fi =? tag) = true |- _ => now rewrite X end.
  - rewrite enc_enum in E. apply app_eq_nil' in E. destruct E as [E _]. now apply leb128_nonempty in E.
  - destruct l as [|x l]; [|cbn in E, W; bprop; apply app_eq_nil' in E; destruct E as [E _]; now apply (delimited_nonempty t) in E].
    destruct c; try discriminate C. eexists. split; reflexivity.
  - destruct es as [|[k' x] l]; [|cbn in E; apply app_eq_nil' in E; destruct E as [E _]; now apply enc_tagged_nonempty in E].
    destruct c; try discriminate C. eexists. split; reflexivity.
Qed.

(** ** Decoding *)

Definition CD (t : ty) : Prop := forall c v rest, ty_ok t = true -> cls t c = true -> cls_ok c = true -> wt t v = true -> c_carried v = true ->
  lenN (enc v) < 2 ^ 31 -> (wty t = Sized -> rest = []) ->
  exists w, c_deser c (enc v ++ rest) = Ok (w, rest) /\ looks v w = true.

Lemma cls_wty t : forall c, cls t c = true -> c_wty c = wty t.
Proof.
  induction t as [k| | | |t IH|t IH|n t IH|ts IH|k t IHk IHt|t IH|si fs IH|st vs IH|t IH|k t IH] using ty_ind'; intros c C;
    try (destruct c; discriminate C || reflexivity). now apply IH.
Qed.

Lemma value_cs t c v rest : CD t -> ty_ok t = true -> cls t c = true -> cls_ok c = true -> wt t v = true -> c_carried v = true ->
  lenN (enc v) < 2 ^ 31 -> exists w, c_value c (c_deser c) (delimited v (enc v) ++ rest) = Ok (w, rest) /\ looks v w = true.
Proof.
  intros H O C K W S L. unfold c_value, delimited. rewrite (wt_vwty t v W), (cls_wty t c C). destruct (wty t) eqn:E.
  - apply H; try assumption. congruence.
  - rewrite <- app_assoc, c_nested_spec by exact L. cbn [bind].
    destruct (H c v [] O C K W S L (fun _ => eq_refl)) as (w & D & Lk). rewrite app_nil_r in D. rewrite D. cbn [bind]. eauto.
Qed.

Lemma cloop_step {S} fuel (step : S -> bytes -> res (S * bytes)) s a b s' : a <> [] -> (length (a ++ b) <= fuel)%nat ->
  step s (a ++ b) = Ok (s', b) -> exists fuel', (length b <= fuel')%nat /\ cloop fuel step s (a ++ b) = cloop fuel' step s' b.
Proof.
  intros H L E. destruct a as [|x a]; [congruence|]. cbn [app length] in L. destruct fuel as [|fuel]; [lia|]. rewrite app_length in L.
  exists fuel. split; [lia|]. cbn [app cloop] in *. now rewrite E.
Qed.

Lemma items_cs t c : CD t -> ty_ok t = true -> cls t c = true -> cls_ok c = true -> forall l pre fuel,
  forallb (wt t) l = true -> forallb c_carried l = true -> lenN (flat_map (fun x => delimited x (enc x)) l) < 2 ^ 31 ->
  (length (flat_map (fun x => delimited x (enc x)) l) <= fuel)%nat ->
  exists ys, cloop fuel (c_item_step c (c_deser c)) pre (flat_map (fun x => delimited x (enc x)) l) = Ok (pre ++ ys) /\ looks_items l ys = true.
Proof.
  intros H O C K. induction l as [|x l IH]; intros pre fuel W S L F.
  - exists []. rewrite app_nil_r. destruct fuel; split; reflexivity.
  - rewrite enc_items_cons in *. rewrite lenN_app in L. cbn [forallb] in *. bprop.
    destruct (value_cs t c x (flat_map (fun x => delimited x (enc x)) l) H O C K) as (y & E & Ly); try assumption.
    { pose proof (delimited_len x (enc x)). lia. }
    destruct (cloop_step fuel (c_item_step c (c_deser c)) pre (delimited x (enc x)) (flat_map (fun x => delimited x (enc x)) l) (pre ++ [y])) as (f' & F' & E').
    + now apply (delimited_nonempty t).
    + exact F.
    + unfold c_item_step. now rewrite E.
    + destruct (IH (pre ++ [y]) f') as (ys & E2 & Ly2); try assumption; [lia|]. exists (y :: ys). rewrite E', E2, <- app_assoc. split; [reflexivity|].
      cbn [looks_items]. now rewrite Ly, Ly2.
Qed.

Definition enc_entries (es : list (N * val)) : bytes := flat_map (fun e : N * val => let '(k, x) := e in enc_tagged k x (enc x)) es.

Lemma entries_cs t c : CD t -> ty_ok t = true -> cls t c = true -> cls_ok c = true -> forall es pre fuel,
  Forall (fun e => wt t (snd e) = true) es -> forallb (fun e : N * val => let '(k, x) := e in (k <=? FIELD_NUMBER_MAX) && c_carried x) es = true ->
  NoDup (map fst pre ++ map fst es) -> lenN (enc_entries es) < 2 ^ 31 -> (length (enc_entries es) <= fuel)%nat ->
  exists ys, cloop fuel (c_map_step c (c_deser c)) pre (enc_entries es) = Ok (pre ++ ys) /\
    Forall2 (fun e e' => fst e' = fst e /\ looks (snd e) (snd e') = true) es ys.
Proof.
  intros H O C K. induction es as [|[k x] es IH]; intros pre fuel W S D L F.
  - exists []. rewrite app_nil_r. destruct fuel; split; constructor.
  - change (enc_entries ((k, x) :: es)) with (enc_tagged k x (enc x) ++ enc_entries es) in *. rewrite lenN_app in L.
    inversion W as [|? ? W1 W2]; subst. cbn [forallb snd] in *. bprop. unfold enc_tagged in L. rewrite lenN_app in L.
    destruct (value_cs t c x (enc_entries es) H O C K) as (y & E & Ly); try assumption.
    { pose proof (delimited_len x (enc x)). lia. }
    cbn [map fst] in D.
    assert (Nw : forall e, In e pre -> fst e <> k).
    { intros e I X. apply NoDup_remove_2 in D. apply D. apply in_app_iff. left. rewrite <- X. now apply in_map. }
    destruct (cloop_step fuel (c_map_step c (c_deser c)) pre (enc_tagged k x (enc x)) (enc_entries es) (pre ++ [(k, y)])) as (f' & F' & E').
    + apply enc_tagged_nonempty.
    + exact F.
    + unfold c_map_step, enc_tagged. rewrite <- app_assoc, c_key_num by lia. cbn [bind]. rewrite E. cbn [bind]. now rewrite im_insert_new.
    + destruct (IH (pre ++ [(k, y)]) f') as (ys & E2 & Ly2); try assumption; [|lia|].
      * rewrite map_app. cbn [map fst]. now rewrite <- app_assoc.
      * exists ((k, y) :: ys). rewrite E', E2, <- app_assoc. split; [reflexivity|]. constructor; auto.
Qed.

Lemma c_field_wty_eq t g c : cls t c = true -> cls_ok_fields [(0, (g, c))] = true -> c_field_wty g c = wty t.
Proof.
  intros C K. rewrite <- (cls_wty t c C). unfold c_field_wty. destruct g; [|reflexivity]. cbn in K. rewrite andb_true_r in K. bprop.
  destruct c; try reflexivity. cbn in *. congruence.
Qed.

Lemma c_put_app tag x pre y ys : ~ In tag (map fst pre) -> c_put tag x (pre ++ (tag, y) :: ys) = pre ++ (tag, x) :: ys.
Proof.
  induction pre as [|[tag' z] pre IH]; intros H; cbn [app c_put].
  - now rewrite N.eqb_refl.
  - cbn in H. destruct (tag =? tag') eqn:E; [exfalso; apply H; left; lia|]. f_equal. apply IH. tauto.
Qed.

Lemma c_fields_cs st rs : forall fts fs cfs pre ys fuel, Forall (fun p => CD (snd p)) fts -> fields_ok st fts = true ->
  cls_fields fts cfs = true -> cls_ok_fields cfs = true -> wt_fields fts fs = true ->
  forallb (fun p : finfo * val => let '(_, x) := p in c_carried x) fs = true -> lenN (enc_fields fs) < 2 ^ 31 -> (length (enc_fields fs) <= fuel)%nat ->
  (forall tag g c, In (tag, (g, c)) cfs -> assoc tag rs = Some (c_field_wty g c, c_deser c)) ->
  NoDup (map fst pre ++ map fst cfs) -> c_new_fields cfs = Ok ys ->
  exists zs, cloop fuel (c_struct_step rs) (pre ++ ys) (enc_fields fs) = Ok (pre ++ zs) /\ looks_fields fs zs = true.
Proof.
  induction fts as [|[fi t] fts IH]; intros [|[fj x] fs] [|[tag [g c]] cfs] pre ys fuel HC O C K W S L F R D N; try discriminate C; try discriminate W.
  - cbn in N. injection N as <-. exists []. destruct fuel; split; reflexivity.
  - inversion HC as [|? ? H1 H2]; subst. cbn [snd] in H1.
    assert (K1 : cls_ok_fields [(0, (g, c))] = true /\ cls_ok_fields cfs = true).
    { unfold cls_ok_fields in *. cbn [forallb] in *. bprop. rewrite andb_true_r. split; [|assumption]. apply andb_true_iff. auto. }
    destruct K1 as [K1 K2]. unfold cls_ok_fields in K. unfold fields_ok in O. cbn [cls_fields forallb c_new_fields wt_fields] in *. bprop.
    match goal with X : finfo_eqb _ _ = true |- _ => apply finfo_eqb_eq in X; subst fj end.
    match goal with X : (f_tag fi =? tag) = true |- _ => apply N.eqb_eq in X; subst tag end.
    assert (G : g && negb (c_constructible c) = false) by (destruct g, (c_constructible c); try reflexivity; discriminate).
    rewrite G in N. destruct (c_new c) as [y0|e| |] eqn:Ny; cbn [bind] in N; try discriminate N.
    destruct (c_new_fields cfs) as [ys'|e| |] eqn:Nys; cbn [bind] in N; try discriminate N. injection N as <-.
    rewrite enc_fields_cons in *. cbn [fst snd] in *. rewrite lenN_app in L. cbn [map fst] in D.
    assert (Next : forall y f', looks x y = true -> (length (enc_fields fs) <= f')%nat ->
      exists zs, cloop f' (c_struct_step rs) (pre ++ (f_tag fi, y) :: ys') (enc_fields fs) = Ok (pre ++ zs) /\ looks_fields ((fi, x) :: fs) zs = true).
    { intros y f' Ly F'. destruct (IH fs cfs (pre ++ [(f_tag fi, y)]) ys' f') as (zs & E & Lz); try assumption; try reflexivity.
      - lia.
      - intros tag g' c' I. apply R. now right.
      - rewrite map_app. cbn [map fst]. now rewrite <- app_assoc.
      - exists ((f_tag fi, y) :: zs). rewrite <- !app_assoc in E. split; [exact E|]. cbn [looks_fields]. now rewrite N.eqb_refl, Ly, Lz. }
    destruct (left_out x (enc x)) eqn:Lo.
    + cbn [app] in *. destruct (new_left_out t c x (c_new_empty t)) as (w & Ew & Lw); try assumption.
      rewrite Ny in Ew. injection Ew as <-. now apply Next.
    + assert (St : exists y, c_struct_step rs (pre ++ (f_tag fi, y0) :: ys') (enc_tagged (f_tag fi) x (enc x) ++ enc_fields fs) =
                     Ok (pre ++ (f_tag fi, y) :: ys', enc_fields fs) /\ looks x y = true).
      { unfold enc_tagged in *. rewrite lenN_app in L. rewrite <- app_assoc. unfold c_struct_step. rewrite c_key_num by lia. cbn [bind].
        rewrite (R (f_tag fi) g c (or_introl eq_refl)), (c_field_wty_eq t g c) by assumption.
        assert (Np : ~ In (f_tag fi) (map fst pre)). { apply NoDup_remove_2 in D. intros I. apply D, in_app_iff. now left. }
        unfold delimited in *. rewrite (wt_vwty t x) in * by assumption. destruct (wty t) eqn:Wt; cbn [wtype_eqb].
        - cbn [bind]. destruct (H1 c x (enc_fields fs)) as (y & E & Ly); try assumption; [lia|congruence|].
          rewrite E. cbn [bind]. rewrite c_put_app by exact Np. eauto.
        - rewrite lenN_app in L. rewrite <- app_assoc, c_nested_spec by lia. cbn [bind].
          destruct (H1 c x []) as (y & E & Ly); try assumption; [lia|reflexivity|]. rewrite app_nil_r in E.
          rewrite E. cbn [bind]. rewrite c_put_app by exact Np. eauto. }
      destruct St as (y & St & Ly).
      destruct (cloop_step fuel _ _ _ _ _ (enc_tagged_nonempty (f_tag fi) x (enc x)) F St) as (f' & F' & E'). rewrite E'. now apply Next.
Qed.

Lemma cls_tags fts : forall cfs, cls_fields fts cfs = true -> map fst cfs = map (fun p : finfo * ty => f_tag (fst p)) fts.
Proof.
  induction fts as [|[fi t] fts IH]; intros [|[tag [g c]] cfs] C; try discriminate C; [reflexivity|]. cbn [cls_fields] in C. bprop.
  cbn [map fst]. rewrite IH by assumption. f_equal. lia.
Qed.
Lemma nodupb_nodup l : nodupb l = true -> NoDup l.
Proof.
  unfold nodupb. induction l as [|n l IH]; intros H; [constructor|]. cbn in H. bprop. constructor; [|auto]. intros I.
  match goal with H : negb _ = true |- _ => apply negb_true_iff in H; apply not_true_iff_false in H; apply H end. apply existsb_exists. exists n. split; [exact I|apply N.eqb_refl].
Qed.
Lemma nodup_nodupb l : NoDup l -> nodupb l = true.
Proof.
  unfold nodupb. induction 1 as [|n l H _ IH]; [reflexivity|]. cbn. rewrite IH, andb_true_r. apply negb_true_iff, not_true_iff_false.
  intros E. apply existsb_exists in E. destruct E as (k & I & E). apply N.eqb_eq in E. now subst.
Qed.
Lemma assoc_nodup {A} k (x : A) l : NoDup (map fst l) -> In (k, x) l -> assoc k l = Some x.
Proof.
  induction l as [|[k' y] l IH]; intros D I; [contradiction I|]. inversion D; subst. cbn. destruct I as [E|I].
  - injection E as -> ->. now rewrite N.eqb_refl.
  - destruct (k =? k') eqn:E; [|auto]. apply N.eqb_eq in E. subst k'. exfalso. match goal with H : ~ In _ _ |- _ => apply H end. now apply (in_map fst) in I.
Qed.
Lemma c_readers_in cfs tag g c : NoDup (map fst cfs) -> In (tag, (g, c)) cfs -> assoc tag (c_readers cfs) = Some (c_field_wty g c, c_deser c).
Proof.
  intros D I. apply assoc_nodup.
  - unfold c_readers. rewrite map_map. erewrite map_ext; [exact D|]. now intros [? [? ?]].
  - unfold c_readers. change (tag, (c_field_wty g c, c_deser c)) with ((fun f : N * (bool * cty) => let '(tag, (g, t)) := f in (tag, (c_field_wty g t, c_deser t))) (tag, (g, c))). now apply in_map.
Qed.

Lemma c_struct_cs st fts fs cfs : Forall (fun p => CD (snd p)) fts -> fields_ok st fts = true ->
  nodupb (map (fun p : finfo * ty => f_tag (fst p)) fts) = true ->
  cls_fields fts cfs = true -> cls_ok_fields cfs = true -> wt_fields fts fs = true ->
  forallb (fun p : finfo * val => let '(_, x) := p in c_carried x) fs = true -> lenN (enc_fields fs) < 2 ^ 31 ->
  exists ys zs, c_new_fields cfs = Ok ys /\ crun (c_struct_step (c_readers cfs)) ys (enc_fields fs) = Ok zs /\ looks_fields fs zs = true.
Proof.
  intros H O Nd C K W S L. apply nodupb_nodup in Nd. rewrite <- (cls_tags fts cfs C) in Nd.
  destruct (new_fields st fts) with (cfs := cfs) as (ys & N & _); try assumption; [apply Forall_forall; intros p _; apply c_new_ok|].
  destruct (c_fields_cs st (c_readers cfs) fts fs cfs [] ys (length (enc_fields fs))) as (zs & E & Lz); try assumption; try reflexivity.
  - intros tag g c. now apply c_readers_in.
  - exists ys, zs. auto.
Qed.

Lemma forall2_len {A B} (R : A -> B -> Prop) l l' : Forall2 R l l' -> length l = length l'.
Proof. induction 1; cbn; congruence. Qed.
Lemma looks_map_entries es ys : NoDup (map fst es) -> Forall2 (fun e e' => fst e' = fst e /\ looks (snd e) (snd e') = true) es ys -> looks_map es ys = true.
Proof.
  intros D F. assert (M : map fst ys = map fst es) by (clear D; induction F as [|? ? ? ? [E _] _ IH]; [reflexivity|]; cbn; now rewrite E, IH).
  unfold looks_map. rewrite (forall2_len _ _ _ F), Nat.eqb_refl, nodup_nodupb by now rewrite M. cbn [andb].
  apply forallb_forall. intros [k x] I. rewrite <- M in D. clear M.
  assert (G : exists y, In (k, y) ys /\ looks x y = true).
  { clear D. induction F as [|[k1 x1] [k2 y2] es ys [E L] _ IH]; [contradiction I|]. cbn in E, L. subst k2. destruct I as [I|I].
    - injection I as -> ->. exists y2. split; [now left|exact L].
    - destruct (IH I) as (y & I' & L'). exists y. split; [now right|exact L']. }
  destruct G as (y & I' & L). now rewrite (assoc_nodup k y ys D I').
Qed.

Lemma list_eqb_refl l : list_eqb N.eqb l l = true.
Proof. induction l as [|n l IH]; [reflexivity|]. cbn. now rewrite N.eqb_refl, IH. Qed.

Lemma c_decode t : CD t.
Proof.
  induction t as [k| | | |t IH|t IH|n t IH|ts IH|kt vt IHk IHt|t IH|si fts IH|st vs IH|t IH|k t IH] using ty_ind';
    intros c v rest O C K W S L R; destruct v as [k' z|b|s|s|o|l|l|l|l|v|cc r fs|tag cc r fs|r l|r es]; try discriminate W.
  - destruct c; try discriminate C. cbn [cls] in C. apply ikind_eqb_eq in C. subst k0. cbn in W. bprop. apply ikind_eqb_eq in H. subst k'.
    cbn [c_deser enc]. rewrite c_int_spec by assumption. cbn in S. rewrite S. cbn [bind]. eexists. split; [reflexivity|]. cbn. apply Z.eqb_refl.
  - destruct c; try discriminate C. exists (CVBool b). destruct b; split; reflexivity.
  - destruct c; try discriminate C. rewrite (R eq_refl), app_nil_r. eexists. split; [reflexivity|]. cbn. apply list_eqb_refl.
  - destruct c; try discriminate C. rewrite (R eq_refl), app_nil_r. eexists. split; [reflexivity|]. cbn. apply list_eqb_refl.
  - destruct c; try discriminate C. rewrite (R eq_refl), app_nil_r. destruct o as [x|]; [|eexists; split; reflexivity].
    cbn [ty_ok cls cls_ok wt c_carried enc c_deser] in *. pose proof (delimited_nonempty t x W) as Nn.
    destruct (value_cs t c x [] IH O C K W S) as (w & E & Lw); [pose proof (delimited_len x (enc x)); lia|]. rewrite app_nil_r in E.
    destruct (delimited x (enc x)) as [|b bs]; [congruence|]. rewrite E. cbn [bind]. eexists. split; [reflexivity|exact Lw].
  - destruct c; try discriminate C. rewrite (R eq_refl), app_nil_r. cbn [ty_ok cls cls_ok wt c_carried enc c_deser] in *. unfold crun.
    destruct (items_cs t c IH O C K l [] _ W S L (le_n _)) as (ys & E & Ly). rewrite E. cbn [bind app]. eexists. split; [reflexivity|exact Ly].
  - destruct c; try discriminate C. rewrite (R eq_refl), app_nil_r. cbn [ty_ok cls cls_ok wt c_carried enc c_deser] in *. bprop. unfold crun.
    destruct (items_cs t c IH ltac:(assumption) C K l [] _ ltac:(assumption) S L (le_n _)) as (ys & E & Ly). rewrite E. cbn [bind app]. eexists. split; [reflexivity|exact Ly].
  - destruct c; discriminate C.
  - destruct c; discriminate C.
  - cbn [ty_ok wt c_carried enc wty] in *. exact (IH c v rest O C K W S L R).
  - destruct c as [| | | | | | | |cfs|]; try discriminate C. rewrite (R eq_refl), app_nil_r. rewrite ty_ok_struct in O. rewrite wt_struct_eq in W. bprop. rewrite cls_struct in C.
    rewrite enc_struct in *. destruct (c_struct_cs (s_state si) fts fs cfs) as (ys & zs & N & E & Lz); try assumption.
    rewrite c_deser_struct, N. cbn [bind]. rewrite E. cbn [bind]. eexists. split; [reflexivity|exact Lz].
  - destruct c as [| | | | | | | | |cvs]; try discriminate C. rewrite (R eq_refl), app_nil_r.
    destruct (c_new_ok (TEnum st vs) (CEnum cvs) O C K) as (d & Nd). rewrite cls_enum in C.
    destruct (wt_enum_inv _ _ _ _ _ _ W) as (c' & fts & V & -> & Wf & _). destruct (cls_find vs _ _ _ C V) as (cfs & A & Cf). cbn [snd] in Cf.
    pose proof (find_variant_in _ _ _ V) as [I _]. pose proof (variant_fields_ok _ _ _ O I) as (Ht & Of & Nt). cbn [fst snd] in Of, Nt, Ht.
    rewrite Forall_forall in IH. specialize (IH _ I). cbn [snd] in IH. rewrite enc_enum in *. rewrite lenN_app in L.
    destruct (c_struct_cs st fts fs cfs) as (ys & zs & N & E & Lz); try assumption.
    { cbn [cls_ok] in K. rewrite forallb_forall in K. exact (K _ (assoc_in _ _ _ A)). }
    { lia. }
    assert (Ti : c_int U32 (leb128 tag ++ enc_fields fs) = Ok (Z.of_N tag, enc_fields fs)).
    { assert (Rg : in_range U32 (Z.of_N tag) = true).
      { unfold in_range. cbn [isigned ibits]. unfold FIELD_NUMBER_MAX in Ht. zpow. lia. }
      pose proof (c_int_spec U32 (Z.of_N tag) (enc_fields fs) Rg) as X. unfold wire_num in X. cbn [isigned] in X. rewrite N2Z.id in X. rewrite X.
      unfold cint_safe. now rewrite Rg. }
    rewrite c_deser_enum, Nd. cbn [bind]. rewrite Ti. cbn [bind]. rewrite N2Z.id, A, N. cbn [bind]. rewrite E. cbn [bind].
    eexists. split; [reflexivity|]. rewrite looks_enum, N.eqb_refl. exact Lz.
  - destruct c; try discriminate C. rewrite (R eq_refl), app_nil_r. cbn [ty_ok cls cls_ok wt c_carried enc c_deser] in *. bprop. unfold crun.
    destruct (items_cs t c IH ltac:(assumption) C K l [] _ W S L (le_n _)) as (ys & E & Ly). rewrite E. cbn [bind app]. eexists. split; [reflexivity|exact Ly].
  - destruct c; try discriminate C. rewrite (R eq_refl), app_nil_r. cbn [ty_ok cls cls_ok wt c_carried enc c_deser] in *. bprop. unfold crun.
    change (flat_map (fun e : N * val => let '(k, x) := e in enc_tagged k x (enc x)) es) with (enc_entries es) in *.
    match goal with H : nodupb _ = true |- _ => apply nodupb_nodup in H; pose proof H as D end.
    destruct (entries_cs t c IH ltac:(assumption) C K es [] (length (enc_entries es))) as (ys & E & Ly); try assumption; [|lia|].
    { clear S. match goal with H : forallb _ es = true |- _ => clear - H; apply forallb_Forall in H; eapply Forall_impl; [|exact H] end. intros [k x] X. cbn [fst snd] in *. apply andb_true_iff in X. now destruct X. }
    rewrite E. cbn [bind app]. eexists. split; [reflexivity|]. rewrite looks_map_eq. now apply looks_map_entries.
Qed.
