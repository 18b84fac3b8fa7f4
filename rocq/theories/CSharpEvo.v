(** Proofs for C54: a C# client decodes what another version of the type wrote. *)
From Verif Require Import Base Varint WireFmt Utf8 Types Ser Spec De Log State StateSpec ValInd VarintProofs WireProofs SerProofs TypeProofs DeProofs RoundTrip MergeProofs TreeProofs ExecProofs CSharp CSharpProofs CSharpSim CSharpSafe.

Definition evo_fields (lax : bool) (fts : list (finfo * ty)) (cfs : list (N * (bool * cty))) : bool :=
  forallb (fun p : finfo * ty => let '(fi, t) := p in
    match assoc (f_tag fi) cfs with
    | Some (g, c) => if wtype_eqb (wty t) (c_field_wty g c) then evo lax t c else lax
    | None => true
    end) fts.
Lemma evo_struct lax si fts cfs : evo lax (TStruct si fts) (CStruct cfs) = evo_fields lax fts cfs. Proof. reflexivity. Qed.
Lemma evo_enum lax st vs cvs : evo lax (TEnum st vs) (CEnum cvs) =
  forallb (fun va : variant => match assoc (fst (fst va)) cvs with Some cfs => evo_fields lax (snd va) cfs | None => true end) vs.
Proof. reflexivity. Qed.

Fixpoint known (fs : list (finfo * val)) (cfs : list (N * (bool * cty))) (xs : list (N * cval)) : Prop :=
  match fs with
  | [] => True
  | (fi, x) :: fs' =>
      match assoc (f_tag fi) cfs, assoc (f_tag fi) xs with
      | None, _ => True
      | Some (g, c), Some y => if wtype_eqb (vwty x) (c_field_wty g c) then sees x c y else c_new c = Ok y
      | Some _, None => False
      end /\ known fs' cfs xs
  end.
Definition ftags {A} (fs : list (finfo * A)) : list N := map (fun p : finfo * A => f_tag (fst p)) fs.
Definition sees_fields (fs : list (finfo * val)) (cfs : list (N * (bool * cty))) (xs : list (N * cval)) : Prop :=
  map fst xs = map fst cfs /\ known fs cfs xs /\
  forall tag g c, assoc tag cfs = Some (g, c) -> ~ In tag (ftags fs) -> exists y, assoc tag xs = Some y /\ c_new c = Ok y.
Fixpoint sees_items (l : list val) (c : cty) (l' : list cval) : Prop :=
  match l, l' with
  | [], [] => True
  | x :: r, y :: r' => sees x c y /\ sees_items r c r'
  | _, _ => False
  end.
Fixpoint sees_entries (es : list (N * val)) (c : cty) (es' : list (N * cval)) : Prop :=
  match es with
  | [] => True
  | (k, x) :: r => match assoc k es' with Some y => sees x c y | None => False end /\ sees_entries r c es'
  end.
Lemma sees_struct cc r fs cfs xs : sees (VStruct cc r fs) (CStruct cfs) (CVStruct xs) = sees_fields fs cfs xs. Proof. reflexivity. Qed.
Lemma sees_enum tag cc r fs cvs tag' xs : sees (VEnum tag cc r fs) (CEnum cvs) (CVEnum tag' xs) =
  match assoc tag cvs with Some cfs => tag' = tag /\ sees_fields fs cfs xs | None => c_new (CEnum cvs) = Ok (CVEnum tag' xs) end.
Proof. reflexivity. Qed.

(** ** Fresh objects *)

Definition ctot (c : cty) : Prop := cgen c = true -> cls_ok c = true -> exists w, c_new c = Ok w.
Lemma assoc_new cfs : forall ys, c_new_fields cfs = Ok ys -> map fst ys = map fst cfs /\
  forall tag g c, assoc tag cfs = Some (g, c) -> exists y, assoc tag ys = Some y /\ c_new c = Ok y.
Proof.
  induction cfs as [|[tag [g c]] cfs IH]; intros ys N; cbn [c_new_fields] in N.
  - injection N as <-. split; [reflexivity|discriminate].
  - destruct (g && _); [discriminate N|]. destruct (c_new c) as [y| | |] eqn:Ey; cbn [bind] in N; try discriminate N.
    destruct (c_new_fields cfs) as [ys'| | |] eqn:Eys; cbn [bind] in N; try discriminate N. injection N as <-. destruct (IH _ eq_refl) as [M A].
    split; [cbn; now rewrite M|]. intros tag' g' c' E. cbn [assoc] in *. destruct (tag' =? tag); [|eauto]. injection E as <- <-. eauto.
Qed.
Lemma new_fields_tot fs : Forall (fun f : N * (bool * cty) => ctot (snd (snd f))) fs -> cgen_fields fs = true -> cls_ok_fields fs = true -> exists xs, c_new_fields fs = Ok xs.
Proof.
  induction 1 as [|[tag [g c]] fs Hc _ IH]; intros G K; [now exists []|]. unfold cgen_fields, cls_ok_fields in *. cbn [c_new_fields forallb snd] in *. bprop.
  destruct Hc as [w E]; try assumption. destruct IH as [xs Ex]; try assumption.
  assert (Z : g && negb (c_constructible c) = false) by (destruct g, (c_constructible c); try reflexivity; discriminate).
  rewrite Z, E. cbn [bind]. rewrite Ex. cbn [bind]. eauto.
Qed.
Lemma c_new_tot c : ctot c.
Proof.
  induction c using cty_slots; intros G K; try (eexists; reflexivity).
  - rewrite c_new_struct. destruct (new_fields_tot fs H G K) as [xs ->]. eexists. reflexivity.
  - rewrite c_new_enum. cbn [cgen cls_ok] in *. bprop. destruct (assoc 0 vs) as [fs|] eqn:A.
    + rewrite Forall_forall in H. destruct (new_fields_tot fs (H _ (assoc_in _ _ _ A))) as [xs ->].
      * now apply (cgen_assoc vs 0).
      * rewrite forallb_forall in K. exact (K _ (assoc_in _ _ _ A)).
      * eexists. reflexivity.
    + exfalso. match goal with E : existsb _ _ = true |- _ => apply existsb_exists in E; destruct E as [[tag fs] [I Z]] end. cbn in Z. apply N.eqb_eq in Z. subst tag.
      apply (proj1 (assoc_some_in 0 vs)); [|exact A]. apply in_map_iff. now exists (0, fs).
Qed.
Lemma new_fields_ok' fs : cgen_fields fs = true -> cls_ok_fields fs = true -> exists xs, c_new_fields fs = Ok xs.
Proof. apply new_fields_tot. apply Forall_forall. intros f _. apply c_new_tot. Qed.
Lemma cls_ok_assoc cfs tag g c : cls_ok_fields cfs = true -> assoc tag cfs = Some (g, c) -> cls_ok c = true /\ c_field_wty g c = c_wty c.
Proof.
  intros K A. unfold cls_ok_fields in K. rewrite forallb_forall in K. pose proof (K _ (assoc_in _ _ _ A)) as X. cbn in X. apply andb_prop in X. destruct X as [X Y].
  split; [exact X|]. unfold c_field_wty. destruct g; [|reflexivity]. cbn in Y. apply andb_prop in Y. destruct Y as [_ Y]. destruct c; try reflexivity. discriminate.
Qed.

Lemma evo_wty lax t : forall c, evo lax t c = true -> c_wty c = wty t.
Proof.
  induction t as [k| | | |t IH|t IH|n t IH|ts IH|k t IHk IHt|t IH|si fs IH|st vs IH|t IH|k t IH] using ty_ind'; intros c C;
    try (destruct c; discriminate C || reflexivity). now apply IH.
Qed.

Definition sempty (t : ty) : Prop := forall lax c v w, ty_ok t = true -> evo lax t c = true -> cls_ok c = true -> wt t v = true -> enc v = [] -> c_new c = Ok w -> sees v c w.
Lemma see_left_out lax t c v w : sempty t -> ty_ok t = true -> evo lax t c = true -> cls_ok c = true -> wt t v = true -> left_out v (enc v) = true -> c_new c = Ok w -> sees v c w.
Proof.
  intros H O C K W L N. apply left_out_empty in L. destruct L as [L|[(k & ->)| ->]].
  - now apply (H lax c v w).
  - destruct t; try discriminate W. destruct c; try discriminate C. cbn in N. injection N as <-. cbn in *. apply andb_prop in W. destruct W as [W _].
    apply ikind_eqb_eq in W, C. split; congruence.
  - destruct t; try discriminate W. destruct c; try discriminate C. cbn in N. injection N as <-. reflexivity.
Qed.
Lemma see_empty_fields lax cfs ys : c_new_fields cfs = Ok ys -> cls_ok_fields cfs = true -> forall fts fs st, Forall (fun p => sempty (snd p)) fts -> fields_ok st fts = true ->
  evo_fields lax fts cfs = true -> wt_fields fts fs = true -> enc_fields fs = [] -> known fs cfs ys.
Proof.
  intros N K. induction fts as [|[fi t] fts IH]; intros [|[fj x] fs] st F O E W Z; try discriminate W; [exact I|].
  inversion F as [|? ? F1 F2]; subst. unfold evo_fields, fields_ok in *. cbn [wt_fields forallb snd] in *. bprop.
  rewrite enc_fields_cons in Z. cbn [fst snd] in Z. apply app_eq_nil' in Z. destruct Z as [Z1 Z2].
  match goal with X : finfo_eqb _ _ = true |- _ => apply finfo_eqb_eq in X; subst fj end.
  destruct (left_out x (enc x)) eqn:L; [|now apply enc_tagged_nonempty in Z1].
  cbn [known]. split; [|eapply IH; eassumption]. destruct (assoc (f_tag fi) cfs) as [[g c]|] eqn:A; [|exact I].
  destruct (assoc_new cfs ys N) as [_ Y]. destruct (Y _ _ _ A) as (y & Ay & Ny). rewrite Ay. rewrite (wt_vwty t x) by assumption.
  destruct (wtype_eqb (wty t) (c_field_wty g c)); [|exact Ny]. destruct (cls_ok_assoc cfs _ g c K A) as [Kc _]. now apply (see_left_out lax t).
Qed.
Lemma sees_fields_new cfs ys fs : c_new_fields cfs = Ok ys -> known fs cfs ys -> sees_fields fs cfs ys.
Proof. intros N Kn. destruct (assoc_new cfs ys N) as [M A]. split; [exact M|]. split; [exact Kn|]. intros tag g c E _. exact (A _ _ _ E). Qed.
Lemma see_empty t : sempty t.
Proof.
  induction t as [k| | | |t IH|t IH|n t IH|ts IH|k t IHk IHt|t IH|si fts IH|st vs IH|t IH|k t IH] using ty_ind';
    intros lax c v w O C K W E Nw; destruct v as [| | | |o|l|l|l|l|v|cc r fs0|tag cc r fs0|r l|r es]; try discriminate W.
  - cbn in E. now apply leb128_nonempty in E.
  - discriminate E.
  - cbn in E. subst. destruct c; try discriminate C. injection Nw as <-. reflexivity.
  - cbn in E. subst. destruct c; try discriminate C. injection Nw as <-. reflexivity.
  - destruct o as [x|]; [cbn in E, W; now apply (delimited_nonempty t) in E|]. destruct c; try discriminate C. injection Nw as <-. exact I.
  - destruct l as [|x l]; [|cbn in E, W; bprop; apply app_eq_nil' in E; destruct E as [E _]; now apply (delimited_nonempty t) in E].
    destruct c; try discriminate C. injection Nw as <-. exact I.
  - cbn [ty_ok wt] in *. bprop. destruct l as [|x l].
    + cbn in *. destruct n; discriminate.
    + cbn in E. cbn in H0. bprop. apply app_eq_nil' in E. destruct E as [E _]. now apply (delimited_nonempty t) in E.
  - destruct c; discriminate C.
  - destruct c; discriminate C.
  - cbn in W, E, O. exact (IH lax c v w O C K W E Nw).
  - destruct c; try discriminate C. rewrite ty_ok_struct in O. rewrite wt_struct_eq in W. bprop. rewrite evo_struct in C. rewrite c_new_struct in Nw.
    rewrite enc_struct in E. change (cls_ok (CStruct fs)) with (cls_ok_fields fs) in K.
    destruct (c_new_fields fs) as [ys| | |] eqn:Ny; cbn [bind] in Nw; try discriminate Nw. injection Nw as <-.
    rewrite sees_struct. apply sees_fields_new; [exact Ny|]. eapply see_empty_fields; eassumption.
  - rewrite enc_enum in E. apply app_eq_nil' in E. destruct E as [E _]. now apply leb128_nonempty in E.
  - destruct l as [|x l]; [|cbn in E, W; bprop; apply app_eq_nil' in E; destruct E as [E _]; now apply (delimited_nonempty t) in E].
    destruct c; try discriminate C. injection Nw as <-. exact I.
  - destruct es as [|[k' x] l]; [|cbn in E; apply app_eq_nil' in E; destruct E as [E _]; now apply enc_tagged_nonempty in E].
    destruct c; try discriminate C. injection Nw as <-. cbn. repeat split. constructor.
Qed.

(** ** Decoding *)

Definition ED (t : ty) : Prop := forall lax c v rest, ty_ok t = true -> evo lax t c = true -> cls_ok c = true -> cgen c = true -> wt t v = true -> c_carried v = true ->
  lenN (enc v) < 2 ^ 31 -> (wty t = Sized -> rest = []) ->
  exists w, c_deser c (enc v ++ rest) = Ok (w, rest) /\ sees v c w.

Lemma value_evo lax t c v rest : ED t -> ty_ok t = true -> evo lax t c = true -> cls_ok c = true -> cgen c = true -> wt t v = true -> c_carried v = true ->
  lenN (enc v) < 2 ^ 31 -> exists w, c_value c (c_deser c) (delimited v (enc v) ++ rest) = Ok (w, rest) /\ sees v c w.
Proof.
  intros H O C K G W S L. unfold c_value, delimited. rewrite (wt_vwty t v W), (evo_wty lax t c C). destruct (wty t) eqn:E.
  - apply (H lax); try assumption. congruence.
  - rewrite <- app_assoc, c_nested_spec by exact L. cbn [bind].
    destruct (H lax c v [] O C K G W S L (fun _ => eq_refl)) as (w & D & Lk). rewrite app_nil_r in D. rewrite D. cbn [bind]. eauto.
Qed.
Lemma items_evo lax t c : ED t -> ty_ok t = true -> evo lax t c = true -> cls_ok c = true -> cgen c = true -> forall l pre fuel,
  forallb (wt t) l = true -> forallb c_carried l = true -> lenN (flat_map (fun x => delimited x (enc x)) l) < 2 ^ 31 ->
  (length (flat_map (fun x => delimited x (enc x)) l) <= fuel)%nat ->
  exists ys, cloop fuel (c_item_step c (c_deser c)) pre (flat_map (fun x => delimited x (enc x)) l) = Ok (pre ++ ys) /\ sees_items l c ys.
Proof.
  intros H O C K G. induction l as [|x l IH]; intros pre fuel W S L F.
  - exists []. rewrite app_nil_r. destruct fuel; split; reflexivity.
  - rewrite enc_items_cons in *. rewrite lenN_app in L. cbn [forallb] in *. bprop.
    destruct (value_evo lax t c x (flat_map (fun x => delimited x (enc x)) l) H O C K G) as (y & E & Ly); try assumption.
    { pose proof (delimited_len x (enc x)). lia. }
    destruct (cloop_step fuel (c_item_step c (c_deser c)) pre (delimited x (enc x)) (flat_map (fun x => delimited x (enc x)) l) (pre ++ [y])) as (f' & F' & E').
    + now apply (delimited_nonempty t).
    + exact F.
    + unfold c_item_step. now rewrite E.
    + destruct (IH (pre ++ [y]) f') as (ys & E2 & Ly2); try assumption; [lia|]. exists (y :: ys). rewrite E', E2, <- app_assoc. split; [reflexivity|].
      cbn [sees_items]. auto.
Qed.
Lemma entries_evo lax t c : ED t -> ty_ok t = true -> evo lax t c = true -> cls_ok c = true -> cgen c = true -> forall es pre fuel,
  Forall (fun e => wt t (snd e) = true) es -> forallb (fun e : N * val => let '(k, x) := e in (k <=? FIELD_NUMBER_MAX) && c_carried x) es = true ->
  NoDup (map fst pre ++ map fst es) -> lenN (enc_entries es) < 2 ^ 31 -> (length (enc_entries es) <= fuel)%nat ->
  exists ys, cloop fuel (c_map_step c (c_deser c)) pre (enc_entries es) = Ok (pre ++ ys) /\
    Forall2 (fun e e' => fst e' = fst e /\ sees (snd e) c (snd e')) es ys.
Proof.
  intros H O C K G. induction es as [|[k x] es IH]; intros pre fuel W S D L F.
  - exists []. rewrite app_nil_r. destruct fuel; split; constructor.
  - change (enc_entries ((k, x) :: es)) with (enc_tagged k x (enc x) ++ enc_entries es) in *. rewrite lenN_app in L.
    inversion W as [|? ? W1 W2]; subst. cbn [forallb snd] in *. bprop. unfold enc_tagged in L. rewrite lenN_app in L.
    destruct (value_evo lax t c x (enc_entries es) H O C K G) as (y & E & Ly); try assumption.
    { pose proof (delimited_len x (enc x)). lia. }
    cbn [map fst] in D.
    assert (Nw : forall e, In e pre -> fst e <> k).
    { intros e I X. apply NoDup_remove_2 in D. apply D. apply in_app_iff. left. rewrite <- X. now apply in_map. }
    destruct (cloop_step fuel (c_map_step c (c_deser c)) pre (enc_tagged k x (enc x)) (enc_entries es) (pre ++ [(k, y)])) as (f' & F' & E').
    + apply enc_tagged_nonempty.
    + exact F.
    + unfold c_map_step, enc_tagged. rewrite <- app_assoc, c_key_num by lia. cbn [bind]. rewrite E. cbn [bind]. now rewrite im_insert_new.
    + destruct (IH (pre ++ [(k, y)]) f') as (ys & E2 & Ly2); try assumption; [|lia|].
      * rewrite map_app. cbn [map fst]. now rewrite <- app_assoc.
      * exists ((k, y) :: ys). rewrite E', E2, <- app_assoc. split; [reflexivity|]. constructor; auto.
Qed.

Lemma assoc_c_put tag tag' x xs : assoc tag' (c_put tag x xs) = if tag' =? tag then match assoc tag xs with Some _ => Some x | None => None end else assoc tag' xs.
Proof.
  induction xs as [|[t y] xs IH]; cbn [c_put assoc]; [now destruct (_ =? _)|]. destruct (tag =? t) eqn:E; cbn [assoc].
  - apply N.eqb_eq in E. subst t. destruct (tag' =? tag); reflexivity.
  - destruct (tag' =? t) eqn:E'; [|exact IH]. apply N.eqb_eq in E'. subst t. apply N.eqb_neq in E. destruct (tag' =? tag) eqn:E''; [apply N.eqb_eq in E''; congruence|reflexivity].
Qed.
Lemma c_put_tags tag x xs : map fst (c_put tag x xs) = map fst xs.
Proof. induction xs as [|[t y] xs IH]; [reflexivity|]. cbn [c_put]. destruct (tag =? t); cbn; [reflexivity|now rewrite IH]. Qed.
Lemma c_bool_whole p : bytes_ok p -> varint_prefix p = Some (p, []) -> forall v, exists b, forall rest, c_bool (p ++ rest) v = Ok (b, rest).
Proof.
  induction p as [|c p IH]; intros B V v; [discriminate V|]. inversion B as [|? ? Hc B']; subst. cbn in V. cbn [app c_bool]. rewrite land128 by exact Hc.
  destruct (c <? 128) eqn:C.
  - inversion V; subst. eexists. intros x. reflexivity.
  - destruct (varint_prefix p) as [[a r]|] eqn:E; [|discriminate V]. inversion V; subst. exact (IH B' eq_refl _).
Qed.

(** A field the class does not know, or expects with another wire type. *)
Definition c_foreign (cfs : list (N * (bool * cty))) (fn : N) (w : wtype) : Prop := forall g c, assoc fn cfs = Some (g, c) -> c_field_wty g c <> w.
Lemma wtype_eqb_neq a b : a <> b -> wtype_eqb b a = false.
Proof. destruct a, b; cbn; congruence. Qed.
Lemma step_foreign cfs xs fn x rest : fn <= FIELD_NUMBER_MAX -> lenN (enc x) < 2 ^ 31 -> c_foreign cfs fn (vwty x) ->
  c_struct_step (c_readers cfs) xs (enc_tagged fn x (enc x) ++ rest) = Ok (xs, rest).
Proof.
  intros Fn L Fo. unfold c_struct_step, enc_tagged. rewrite <- app_assoc, c_key_num by lia. cbn [bind]. unfold delimited.
  assert (Sk : (do (sub, rest0) <- match vwty x with Sized => c_nested ((match vwty x with Varint => enc x | Sized => leb128 (lenN (enc x)) ++ enc x end) ++ rest)
                  | Varint => Ok ((match vwty x with Varint => enc x | Sized => leb128 (lenN (enc x)) ++ enc x end) ++ rest, (match vwty x with Varint => enc x | Sized => leb128 (lenN (enc x)) ++ enc x end) ++ rest) end;
     match vwty x with Varint => do (_, rest1) <- c_bool rest0 false; Ok (xs, rest1) | Sized => Ok (xs, rest0) end) = Ok (xs, rest)).
  { destruct (vwty x) eqn:V.
    - cbn [bind]. destruct (varint_enc x V) as [B P]. destruct (c_bool_whole _ B P false) as [b E]. now rewrite E.
    - rewrite <- app_assoc, c_nested_spec by exact L. reflexivity. }
  rewrite assoc_readers. destruct (assoc fn cfs) as [[g c]|] eqn:A; [|exact Sk].
  rewrite (wtype_eqb_neq (c_field_wty g c) (vwty x)) by now apply Fo. exact Sk.
Qed.

Lemma fields_evo lax cfs : cls_ok_fields cfs = true -> cgen_fields cfs = true -> forall st fts fs xs fuel, Forall (fun p => ED (snd p)) fts -> fields_ok st fts = true ->
  evo_fields lax fts cfs = true -> wt_fields fts fs = true -> NoDup (ftags fs) ->
  forallb (fun p : finfo * val => let '(_, x) := p in c_carried x) fs = true -> lenN (enc_fields fs) < 2 ^ 31 -> (length (enc_fields fs) <= fuel)%nat ->
  map fst xs = map fst cfs ->
  (forall tag g c, In tag (ftags fs) -> assoc tag cfs = Some (g, c) -> exists y, assoc tag xs = Some y /\ c_new c = Ok y) ->
  exists zs, cloop fuel (c_struct_step (c_readers cfs)) xs (enc_fields fs) = Ok zs /\ map fst zs = map fst cfs /\ known fs cfs zs /\
    forall tag, ~ In tag (ftags fs) -> assoc tag zs = assoc tag xs.
Proof.
  intros K G st. induction fts as [|[fi t] fts IH]; intros [|[fj x] fs] xs fuel HC O E W D S L F M Fr; try discriminate W.
  - exists xs. split; [now destruct fuel|]. split; [exact M|]. split; [exact I|auto].
  - inversion HC as [|? ? H1 H2]; subst. cbn [snd] in H1. unfold evo_fields, fields_ok in *. cbn [wt_fields forallb snd] in *. bprop.
    match goal with X : finfo_eqb _ _ = true |- _ => apply finfo_eqb_eq in X; subst fj end.
    rewrite enc_fields_cons in *. cbn [fst snd] in *. rewrite lenN_app in L. unfold ftags in D. cbn [map fst] in D. inversion D as [|? ? D1 D2]; subst.
    (* what happens to this field, whatever follows *)
    assert (Next : forall xs' f', map fst xs' = map fst cfs -> (forall tag, tag <> f_tag fi -> assoc tag xs' = assoc tag xs) ->
      match assoc (f_tag fi) cfs, assoc (f_tag fi) xs' with
        | None, _ => True
        | Some (g, c), Some y => if wtype_eqb (vwty x) (c_field_wty g c) then sees x c y else c_new c = Ok y
        | Some _, None => False
        end -> (length (enc_fields fs) <= f')%nat ->
      exists zs, cloop f' (c_struct_step (c_readers cfs)) xs' (enc_fields fs) = Ok zs /\ map fst zs = map fst cfs /\ known ((fi, x) :: fs) cfs zs /\
        forall tag, ~ In tag (ftags ((fi, x) :: fs)) -> assoc tag zs = assoc tag xs).
    { intros xs' f' M' Ot Kx Lf. destruct (IH fs xs' f') as (zs & Z & Mz & Kz & Oz); try assumption; [lia| |].
      - intros tag g c I A. rewrite Ot by (intros ->; contradiction). apply (Fr tag g c); [now right|exact A].
      - exists zs. split; [exact Z|]. split; [exact Mz|]. split.
        + cbn [known]. rewrite (Oz (f_tag fi)) by exact D1. split; [exact Kx|exact Kz].
        + intros tag Nt. unfold ftags in Nt. cbn [map fst] in Nt. rewrite Oz by (intros I; apply Nt; now right). apply Ot. intros ->. apply Nt. now left. }
    destruct (left_out x (enc x)) eqn:Lo.
    + cbn [app] in *. apply Next; try assumption; [reflexivity|]. destruct (assoc (f_tag fi) cfs) as [[g c]|] eqn:A; [|exact I].
      destruct (Fr (f_tag fi) g c) as (y & Ay & Ny); [now left|exact A|]. rewrite Ay, (wt_vwty t x) by assumption.
      destruct (wtype_eqb (wty t) (c_field_wty g c)); [|exact Ny]. destruct (cls_ok_assoc cfs _ g c K A) as [Kc _]. now apply (see_left_out lax t c x y (see_empty t)).
    + pose proof (delimited_len x (enc x)) as Dl. assert (Ll : lenN (enc x) < 2 ^ 31) by (unfold enc_tagged in L; rewrite lenN_app in L; lia).
      assert (St : exists xs', c_struct_step (c_readers cfs) xs (enc_tagged (f_tag fi) x (enc x) ++ enc_fields fs) = Ok (xs', enc_fields fs) /\
        map fst xs' = map fst cfs /\ (forall tag, tag <> f_tag fi -> assoc tag xs' = assoc tag xs) /\
        match assoc (f_tag fi) cfs, assoc (f_tag fi) xs' with
        | None, _ => True
        | Some (g, c), Some y => if wtype_eqb (vwty x) (c_field_wty g c) then sees x c y else c_new c = Ok y
        | Some _, None => False
        end).
      { destruct (assoc (f_tag fi) cfs) as [[g c]|] eqn:A.
        2:{ exists xs. split; [apply step_foreign; [lia|exact Ll|intros g c A'; congruence]|auto]. }
        destruct (Fr (f_tag fi) g c) as (y0 & Ay & Ny); [now left|exact A|].
        destruct (wtype_eqb (vwty x) (c_field_wty g c)) eqn:Wt.
        2:{ exists xs. split; [apply step_foreign; [lia|exact Ll|]|].
            - intros g' c' A'. rewrite A in A'. injection A' as <- <-. intros X. rewrite X in Wt. now destruct (vwty x).
            - rewrite Ay. auto. }
        destruct (cls_ok_assoc cfs _ g c K A) as [Kc Wc]. pose proof (cgen_in _ _ _ _ G A) as Gc.
        rewrite (wt_vwty t x) in Wt by assumption.
        match goal with H : (if wtype_eqb (wty t) _ then _ else _) = true |- _ => rewrite Wt in H; rename H into Ev end.
        assert (exists y, c_struct_step (c_readers cfs) xs (enc_tagged (f_tag fi) x (enc x) ++ enc_fields fs) = Ok (c_put (f_tag fi) y xs, enc_fields fs) /\ sees x c y) as (y & Y & Sy).
        { unfold c_struct_step, enc_tagged. rewrite <- app_assoc, c_key_num by lia. cbn [bind]. rewrite assoc_readers, A. unfold delimited. rewrite (wt_vwty t x) by assumption.
          rewrite Wt. destruct (wty t) eqn:Wy.
          - cbn [bind]. destruct (H1 lax c x (enc_fields fs)) as (y & Dy & Sy); try assumption; [congruence|]. rewrite Dy. cbn [bind]. eauto.
          - rewrite <- app_assoc, c_nested_spec by exact Ll. cbn [bind]. destruct (H1 lax c x []) as (y & Dy & Sy); try assumption; [reflexivity|].
            rewrite app_nil_r in Dy. rewrite Dy. cbn [bind]. eauto. }
        exists (c_put (f_tag fi) y xs). split; [exact Y|]. split; [now rewrite c_put_tags|]. split.
        - intros tag Nt. rewrite assoc_c_put. apply N.eqb_neq in Nt. now rewrite Nt.
        - rewrite assoc_c_put, N.eqb_refl, Ay. exact Sy. }
      destruct St as (xs' & St & M' & Ot & Kx).
      destruct (cloop_step fuel _ _ _ _ _ (enc_tagged_nonempty (f_tag fi) x (enc x)) F St) as (f' & F' & E'). rewrite E'. now apply Next.
Qed.
Lemma struct_evo lax st fts fs cfs ys : Forall (fun p => ED (snd p)) fts -> fields_ok st fts = true -> nodupb (map (fun p : finfo * ty => f_tag (fst p)) fts) = true ->
  evo_fields lax fts cfs = true -> cls_ok_fields cfs = true -> cgen_fields cfs = true -> wt_fields fts fs = true ->
  forallb (fun p : finfo * val => let '(_, x) := p in c_carried x) fs = true -> lenN (enc_fields fs) < 2 ^ 31 -> c_new_fields cfs = Ok ys ->
  exists zs, crun (c_struct_step (c_readers cfs)) ys (enc_fields fs) = Ok zs /\ sees_fields fs cfs zs.
Proof.
  intros H O Nd C K G W S L Ny. apply nodupb_nodup in Nd. destruct (assoc_new cfs ys Ny) as [M A].
  destruct (fields_evo lax cfs K G st fts fs ys (length (enc_fields fs))) as (zs & Z & Mz & Kz & Oz); try assumption; [|lia|eauto|].
  - unfold ftags. apply nodup_nodupb in Nd. now apply (fields_nodup fts).
  - exists zs. split; [exact Z|]. split; [exact Mz|]. split; [exact Kz|]. intros tag g c At Nt. rewrite Oz by exact Nt. eauto.
Qed.

Lemma sees_entries_of c es ys : NoDup (map fst es) -> Forall2 (fun e e' => fst e' = fst e /\ sees (snd e) c (snd e')) es ys ->
  length es = length ys /\ NoDup (map fst ys) /\ sees_entries es c ys.
Proof.
  intros D F. assert (M : map fst ys = map fst es) by (clear D; induction F as [|? ? ? ? [E _] _ IH]; [reflexivity|]; cbn; now rewrite E, IH).
  split; [exact (forall2_len _ _ _ F)|]. rewrite M. split; [exact D|]. rewrite <- M in D.
  assert (H : forall es', (forall k x, In (k, x) es' -> exists y, In (k, y) ys /\ sees x c y) -> sees_entries es' c ys).
  { induction es' as [|[k x] es' IH]; intros H; [exact I|]. cbn [sees_entries]. split; [|apply IH; intros; apply H; now right].
    destruct (H k x (or_introl eq_refl)) as (y & Iy & Sy). now rewrite (assoc_nodup k y ys D Iy). }
  apply H. clear - F. induction F as [|[k1 x1] [k2 y2] es ys [E L] _ IH]; intros k x I; [contradiction I|]. cbn in E, L. subst k2. destruct I as [I|I].
  - injection I as -> ->. exists y2. split; [now left|exact L].
  - destruct (IH k x I) as (y & I' & L'). exists y. split; [now right|exact L'].
Qed.

Lemma c_decode_evo t : ED t.
Proof.
  induction t as [k| | | |t IH|t IH|n t IH|ts IH|kt vt IHk IHt|t IH|si fts IH|st vs IH|t IH|k t IH] using ty_ind';
    intros lax c v rest O C K G W S L R; destruct v as [k' z|b|s|s|o|l|l|l|l|v|cc r fs|tag cc r fs|r l|r es]; try discriminate W.
  - destruct c; try discriminate C. cbn [evo] in C. apply ikind_eqb_eq in C. subst k0. cbn in W. bprop. apply ikind_eqb_eq in H. subst k'.
    cbn [c_deser enc]. rewrite c_int_spec by assumption. cbn in S. rewrite S. cbn [bind]. eexists. split; [reflexivity|]. now split.
  - destruct c; try discriminate C. exists (CVBool b). destruct b; split; reflexivity.
  - destruct c; try discriminate C. rewrite (R eq_refl), app_nil_r. eexists. split; reflexivity.
  - destruct c; try discriminate C. rewrite (R eq_refl), app_nil_r. eexists. split; reflexivity.
  - destruct c; try discriminate C. rewrite (R eq_refl), app_nil_r. destruct o as [x|]; [|eexists; split; [reflexivity|exact I]].
    cbn [ty_ok evo cls_ok cgen wt c_carried enc c_deser] in *. pose proof (delimited_nonempty t x W) as Nn.
    destruct (value_evo lax t c x [] IH O C K G W S) as (w & E & Lw); [pose proof (delimited_len x (enc x)); lia|]. rewrite app_nil_r in E.
    destruct (delimited x (enc x)) as [|b bs]; [congruence|]. rewrite E. cbn [bind]. eexists. split; [reflexivity|exact Lw].
  - destruct c; try discriminate C. rewrite (R eq_refl), app_nil_r. cbn [ty_ok evo cls_ok cgen wt c_carried enc c_deser] in *. unfold crun.
    destruct (items_evo lax t c IH O C K G l [] _ W S L (le_n _)) as (ys & E & Ly). rewrite E. cbn [bind app]. eexists. split; [reflexivity|exact Ly].
  - destruct c; try discriminate C. rewrite (R eq_refl), app_nil_r. cbn [ty_ok evo cls_ok cgen wt c_carried enc c_deser] in *. bprop. unfold crun.
    destruct (items_evo lax t c IH ltac:(assumption) C K G l [] _ ltac:(assumption) S L (le_n _)) as (ys & E & Ly). rewrite E. cbn [bind app]. eexists. split; [reflexivity|exact Ly].
  - destruct c; discriminate C.
  - destruct c; discriminate C.
  - cbn [ty_ok wt c_carried enc wty] in *. exact (IH lax c v rest O C K G W S L R).
  - destruct c as [| | | | | | | |cfs|]; try discriminate C. rewrite (R eq_refl), app_nil_r. rewrite ty_ok_struct in O. rewrite wt_struct_eq in W. bprop. rewrite evo_struct in C.
    destruct (new_fields_ok' cfs G K) as (ys & N). rewrite enc_struct in *. destruct (struct_evo lax (s_state si) fts fs cfs ys) as (zs & E & Lz); try assumption.
    rewrite c_deser_struct, N. cbn [bind]. rewrite E. cbn [bind]. eexists. split; [reflexivity|exact Lz].
  - destruct c as [| | | | | | | | |cvs]; try discriminate C. rewrite (R eq_refl), app_nil_r.
    destruct (c_new_tot (CEnum cvs) G K) as (d & Nd). rewrite evo_enum in C.
    destruct (wt_enum_inv _ _ _ _ _ _ W) as (c' & fts & V & -> & Wf & _).
    pose proof (find_variant_in _ _ _ V) as [I _]. pose proof (variant_fields_ok _ _ _ O I) as (Ht & Of & Nt). cbn [fst snd] in Of, Nt, Ht.
    rewrite Forall_forall in IH. specialize (IH _ I). cbn [snd] in IH. rewrite enc_enum in *. rewrite lenN_app in L.
    rewrite forallb_forall in C. specialize (C _ I). cbn [fst snd] in C.
    assert (Ti : c_int U32 (leb128 tag ++ enc_fields fs) = Ok (Z.of_N tag, enc_fields fs)).
    { assert (Rg : in_range U32 (Z.of_N tag) = true).
      { unfold in_range. cbn [isigned ibits]. unfold FIELD_NUMBER_MAX in Ht. zpow. lia. }
      pose proof (c_int_spec U32 (Z.of_N tag) (enc_fields fs) Rg) as X. unfold wire_num in X. cbn [isigned] in X. rewrite N2Z.id in X. rewrite X.
      unfold cint_safe. now rewrite Rg. }
    rewrite c_deser_enum, Nd. cbn [bind]. rewrite Ti. cbn [bind]. rewrite N2Z.id. destruct (assoc tag cvs) as [cfs|] eqn:A.
    + cbn [cgen cls_ok] in G, K. apply andb_prop in G. destruct G as [_ G]. pose proof (cgen_assoc cvs _ _ G A) as Gf.
      assert (Kf : cls_ok_fields cfs = true) by (rewrite forallb_forall in K; exact (K _ (assoc_in _ _ _ A))).
      destruct (new_fields_ok' cfs Gf Kf) as (ys & N). destruct (struct_evo lax st fts fs cfs ys) as (zs & E & Lz); try assumption; [lia|].
      rewrite N. cbn [bind]. rewrite E. cbn [bind]. eexists. split; [reflexivity|]. rewrite sees_enum, A. now split.
    + exists d. split; [reflexivity|]. pose proof Nd as Nd'. rewrite c_new_enum in Nd'. destruct (assoc 0 cvs); [|discriminate Nd'].
      destruct (c_new_fields l); cbn [bind] in Nd'; try discriminate Nd'. injection Nd' as <-. rewrite sees_enum, A. exact Nd.
  - destruct c; try discriminate C. rewrite (R eq_refl), app_nil_r. cbn [ty_ok evo cls_ok cgen wt c_carried enc c_deser] in *. bprop. unfold crun.
    destruct (items_evo lax t c IH ltac:(assumption) C K G l [] _ W S L (le_n _)) as (ys & E & Ly). rewrite E. cbn [bind app]. eexists. split; [reflexivity|exact Ly].
  - destruct c; try discriminate C. rewrite (R eq_refl), app_nil_r. cbn [ty_ok evo cls_ok cgen wt c_carried enc c_deser] in *. bprop. unfold crun.
    change (flat_map (fun e : N * val => let '(k, x) := e in enc_tagged k x (enc x)) es) with (enc_entries es) in *.
    match goal with H : nodupb _ = true |- _ => apply nodupb_nodup in H; pose proof H as D end.
    destruct (entries_evo lax t c IH ltac:(assumption) C K G es [] (length (enc_entries es))) as (ys & E & Ly); try assumption; [|lia|].
    { clear S. match goal with H : forallb _ es = true |- _ => clear - H; apply forallb_Forall in H; eapply Forall_impl; [|exact H] end. intros [k x] X. cbn [fst snd] in *. apply andb_true_iff in X. now destruct X. }
    rewrite E. cbn [bind app]. eexists. split; [reflexivity|]. exact (sees_entries_of c es ys D Ly).
Qed.
