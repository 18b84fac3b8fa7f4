(** Proofs for C55: readers of another version of the type. *)
From Verif Require Import Base Varint WireFmt Utf8 Types Ser Spec De Log State ValInd VarintProofs WireProofs SerProofs TypeProofs EqProofs DeProofs RoundTrip MergeProofs NormProofs LogProofs TreeProofs CohProofs HandleProofs OpProofs ExecProofs Evo.

Definition ev_fields (fts fts' : list (finfo * ty)) : bool :=
  forallb (fun p : finfo * ty => let '(fi, t) := p in
    match find_field (f_tag fi) fts' with
    | Some (_, t') => if wtype_eqb (wty t) (wty t') then evolves t t' else true
    | None => true
    end) fts.
Definition view_field (r : rt) (fs : list (finfo * val)) (p : finfo * ty) : finfo * val :=
  let '(fi, t) := p in
  (fi, match find_field (f_tag fi) fs with
       | Some (_, x) => if wtype_eqb (wty t) (vwty x) then view t (field_rt r fi) x else dflt t (field_rt r fi)
       | None => dflt t (field_rt r fi)
       end).
Definition view_fields (r : rt) (fts : list (finfo * ty)) (fs : list (finfo * val)) : list (finfo * val) := map (view_field r fs) fts.
Definition takes_fields (m : mode) (fts : list (finfo * ty)) (fs : list (finfo * val)) : bool :=
  forallb (fun p : finfo * val => let '(fi, x) := p in
    match find_field (f_tag fi) fts with
    | Some (_, t) => if wtype_eqb (wty t) (vwty x) then takes m t x else short m x
    | None => short m x
    end) fs.
Fixpoint view_items (t : ty) (r : rt) (i : N) (l : list val) : list val :=
  match l with [] => [] | x :: l => view t (nested r i) x :: view_items t r (i + 1) l end.
Fixpoint view_list (ts : list ty) (l : list val) : list val :=
  match ts, l with t :: ts, x :: l => view t rt_default x :: view_list ts l | _, _ => [] end.
Fixpoint takes_list (m : mode) (l : list val) (ts : list ty) : bool :=
  match l, ts with x :: l, t :: ts => takes m t x && takes_list m l ts | _, _ => true end.
Fixpoint ev_list (ts ts' : list ty) : bool :=
  match ts, ts' with [], [] => true | t :: ts, t' :: ts' => evolves t t' && ev_list ts ts' | _, _ => false end.

Lemma ev_struct si fts si' fts' : evolves (TStruct si fts) (TStruct si' fts') = ev_fields fts fts'. Proof. reflexivity. Qed.
Lemma ev_enum st vs st' vs' : evolves (TEnum st vs) (TEnum st' vs') =
  forallb (fun va : (N * bool) * list (finfo * ty) => match find_variant vs' (fst (fst va)) with Some va' => ev_fields (snd va) (snd va') | None => true end) vs.
Proof. reflexivity. Qed.
Lemma ev_tup ts ts' : evolves (TTup ts) (TTup ts') = ev_list ts ts'. Proof. reflexivity. Qed.
Lemma view_struct si fts r cc r0 fs : view (TStruct si fts) r (VStruct cc r0 fs) = VStruct (s_cache si) (if s_state si then Some r else None) (view_fields r fts fs).
Proof. reflexivity. Qed.
Lemma view_enum st vs r tag cc r0 fs : view (TEnum st vs) r (VEnum tag cc r0 fs) =
  match find_variant vs tag with
  | Some va => VEnum tag (snd (fst va)) (if st then Some (nested r tag) else None) (view_fields (nested r tag) (snd va) fs)
  | None => VEnum tag cc r0 fs
  end.
Proof.
  unfold find_variant. cbn [view]. induction vs as [|[[tg c'] ts] vs IH]; [reflexivity|]. cbn [find fst]. destruct (tg =? tag); [reflexivity|exact IH].
Qed.
Lemma view_list_eq t r r0 l : view (TList t) r (VList r0 l) = VList r (view_items t r 0 l).
Proof. cbn [view]. f_equal. generalize 0. induction l as [|x l IH]; intros i; [reflexivity|]. cbn [view_items]. now rewrite <- IH. Qed.
Lemma view_tup ts r l : view (TTup ts) r (VTup l) = VTup (view_list ts l). Proof. reflexivity. Qed.
Lemma takes_struct m si fts cc r fs : takes m (TStruct si fts) (VStruct cc r fs) = takes_fields m fts fs. Proof. reflexivity. Qed.
Lemma takes_enum m st vs tag cc r fs : takes m (TEnum st vs) (VEnum tag cc r fs) =
  match find_variant vs tag with Some va => takes_fields m (snd va) fs | None => false end.
Proof. reflexivity. Qed.
Lemma takes_tup m ts l : takes m (TTup ts) (VTup l) = takes_list m l ts.
Proof. cbn [takes]. revert ts. induction l as [|x l IH]; intros [|t ts]; try reflexivity. cbn [takes_list]. now rewrite <- IH. Qed.

Lemma evolves_wty t : forall t', evolves t t' = true -> wty t' = wty t.
Proof.
  induction t as [k| | | |t IH|t IH|n t IH|ts IH|k t IHk IHt|t IH|si fs IH|st vs IH|t IH|k t IH] using ty_ind'; intros t' E;
    destruct t'; try discriminate E; try reflexivity. exact (IH t' E).
Qed.
Lemma wtype_eqb_refl w : wtype_eqb w w = true. Proof. now destruct w. Qed.
Lemma wtype_eqb_eq a b : wtype_eqb a b = true -> a = b. Proof. now destruct a, b. Qed.
Lemma wtype_eqb_sym a b : wtype_eqb a b = wtype_eqb b a. Proof. now destruct a, b. Qed.

Lemma find_field_snoc {A} tag (fs : list (finfo * A)) fi x : find_field tag fs = None ->
  find_field tag (fs ++ [(fi, x)]) = if tag =? f_tag fi then Some (fi, x) else None.
Proof. induction fs as [|[fj y] fs IH]; cbn; intros H; [reflexivity|]. destruct (tag =? f_tag fj); [discriminate|auto]. Qed.
Lemma find_field_snoc_other {A} tag (fs : list (finfo * A)) fi x : tag <> f_tag fi -> find_field tag (fs ++ [(fi, x)]) = find_field tag fs.
Proof. intros H. induction fs as [|[fj y] fs IH]; cbn; [destruct (tag =? f_tag fi) eqn:E; [lia|reflexivity]|]. now destruct (tag =? f_tag fj). Qed.
Lemma find_field_none {A} tag (fs : list (finfo * A)) : ~ In tag (map (fun p : finfo * A => f_tag (fst p)) fs) -> find_field tag fs = None.
Proof. induction fs as [|[fj y] fs IH]; cbn; intros H; [reflexivity|]. destruct (tag =? f_tag fj) eqn:E; [exfalso; apply H; left; lia|]. apply IH. tauto. Qed.

Lemma nodupb_nodup l : nodupb l = true -> NoDup l.
Proof.
  unfold nodupb. induction l as [|n l IH]; intros H; [constructor|]. cbn in H. bprop. constructor; [|auto]. intros I.
  match goal with H : negb _ = true |- _ => apply negb_true_iff in H; apply not_true_iff_false in H; apply H end. apply existsb_exists. exists n. split; [exact I|apply N.eqb_refl].
Qed.

(** ** What is left out is shown as default *)

Lemma ev_in fts fts' fi t fj t' : ev_fields fts fts' = true -> In (fi, t) fts -> find_field (f_tag fi) fts' = Some (fj, t') -> wty t = wty t' -> evolves t t' = true.
Proof.
  intros E I F W. unfold ev_fields in E. rewrite forallb_forall in E. specialize (E _ I). cbn in E. rewrite F, W, wtype_eqb_refl in E. exact E.
Qed.

Definition vempty (t : ty) : Prop := forall t' r v, ty_ok t = true -> ty_ok t' = true -> evolves t t' = true -> wt t v = true -> enc v = [] -> view t' r v = dflt t' r.
Lemma view_left_out t t' r v : vempty t -> ty_ok t = true -> ty_ok t' = true -> evolves t t' = true -> wt t v = true -> left_out v (enc v) = true -> view t' r v = dflt t' r.
Proof.
  intros H O O' E W L. apply left_out_empty in L. destruct L as [L|[(k & ->)| ->]].
  - now apply H.
  - destruct t; try discriminate W. destruct t'; try discriminate E. cbn in *. apply andb_prop in W. destruct W as [W _]. apply ikind_eqb_eq in W, E. now subst.
  - destruct t; try discriminate W. destruct t'; try discriminate E. reflexivity.
Qed.
Lemma find_field_some {A} (l : list (finfo * A)) fi x : nodupb (map (fun p : finfo * A => f_tag (fst p)) l) = true -> In (fi, x) l -> find_field (f_tag fi) l = Some (fi, x).
Proof.
  intros Nd J. apply nodupb_nodup in Nd. induction l as [|[fk z] l IH]; [contradiction J|]. cbn in *. inversion Nd; subst. destruct J as [J|J].
  - injection J as -> ->. now rewrite N.eqb_refl.
  - destruct (f_tag fi =? f_tag fk) eqn:X; [|now apply IH]. exfalso. apply N.eqb_eq in X. match goal with H : ~ In _ _ |- _ => apply H end. rewrite <- X.
    now apply (in_map (fun p : finfo * A => f_tag (fst p))) in J.
Qed.
Lemma ev_both fts fts' fi t fj t' : ev_fields fts fts' = true -> nodupb (map (fun p : finfo * ty => f_tag (fst p)) fts') = true -> In (fi, t) fts -> In (fj, t') fts' ->
  f_tag fj = f_tag fi -> wtype_eqb (wty t') (wty t) = true -> evolves t t' = true.
Proof.
  intros E Nd I J T W. apply (ev_in fts fts' fi t fj t' E I); [|now apply wtype_eqb_eq in W]. rewrite <- T. now apply find_field_some.
Qed.
Lemma in_wt fts fs fi x : wt_fields fts fs = true -> In (fi, x) fs -> exists t, In (fi, t) fts /\ wt t x = true.
Proof.
  revert fs. induction fts as [|[fj t] fts IH]; intros [|[fk y] fs] W I; try discriminate W; [contradiction I|]. cbn [wt_fields] in W. bprop.
  match goal with X : finfo_eqb _ _ = true |- _ => apply finfo_eqb_eq in X; subst fk end. destruct I as [I|I].
  - injection I as -> ->. exists t. split; [now left|assumption].
  - destruct (IH fs) as (t' & A & B); try assumption. exists t'. split; [now right|exact B].
Qed.
Lemma fields_ok_in st fts fi t : fields_ok st fts = true -> In (fi, t) fts -> ty_ok t = true /\ f_tag fi <= FIELD_NUMBER_MAX.
Proof. intros O I. unfold fields_ok in O. rewrite forallb_forall in O. specialize (O _ I). cbn in O. bprop. split; [assumption|lia]. Qed.

(** A field that is left out changes nothing. *)
Lemma view_fields_left_out st' r fts fts' D fi t x : vempty t -> ty_ok t = true -> wt t x = true -> left_out x (enc x) = true -> find_field (f_tag fi) D = None ->
  fields_ok st' fts' = true -> ev_fields fts fts' = true -> nodupb (map (fun p : finfo * ty => f_tag (fst p)) fts') = true -> In (fi, t) fts ->
  view_fields r fts' (D ++ [(fi, x)]) = view_fields r fts' D.
Proof.
  intros H O W L F O' Ev Nd I. unfold view_fields. apply map_ext_in. intros [fj t'] J. cbn [view_field]. f_equal.
  destruct (N.eq_dec (f_tag fj) (f_tag fi)) as [E|E].
  - rewrite E, F, find_field_snoc, N.eqb_refl by exact F. rewrite (wt_vwty t x W). destruct (wtype_eqb (wty t') (wty t)) eqn:X; [|reflexivity].
    apply (view_left_out t); try assumption; [exact (proj1 (fields_ok_in _ _ _ _ O' J))|]. now apply (ev_both fts fts' fi t fj t').
  - now rewrite find_field_snoc_other.
Qed.
Lemma view_fields_nil r fts : view_fields r fts [] = dflt_fields r fts.
Proof. unfold view_fields, dflt_fields. apply map_ext. now intros [fi t]. Qed.

Lemma enc_fields_in fs fi x : enc_fields fs = [] -> In (fi, x) fs -> left_out x (enc x) = true.
Proof.
  induction fs as [|[fj y] fs IH]; intros E I; [contradiction I|]. rewrite enc_fields_cons in E. cbn [fst snd] in E. apply app_eq_nil' in E. destruct E as [E1 E2].
  destruct I as [I|I]; [|auto]. injection I as -> ->. destruct (left_out x (enc x)); [reflexivity|]. now apply enc_tagged_nonempty in E1.
Qed.

Lemma view_empty t : vempty t.
Proof.
  induction t as [k| | | |t IH|t IH|n t IH|ts IH|k t IHk IHt|t IH|si fts IH|st vs IH|t IH|k t IH] using ty_ind';
    intros t' r v O O' Ev W E; destruct t' as [k'| | | |t'|t'|n' t'|ts'|kt' vt'|t'|si' fts'|st' vs'|t'|k' t']; try discriminate Ev;
    destruct v as [| | | |o|l|l|l|l|v|cc r0 fs0|tag cc r0 fs0|r0 l|r0 es]; try discriminate W.
  - cbn in E. now apply leb128_nonempty in E.
  - discriminate E.
  - cbn in *. now subst.
  - cbn in *. now subst.
  - destruct o as [x|]; [cbn in E, W; now apply (delimited_nonempty t) in E|]. reflexivity.
  - destruct l as [|x l]; [reflexivity|cbn in E, W; bprop; apply app_eq_nil' in E; destruct E as [E _]; now apply (delimited_nonempty t) in E].
  - cbn [ty_ok wt] in *. bprop. destruct l as [|x l].
    + cbn in *. destruct n; discriminate.
    + cbn in E. cbn in H0. bprop. apply app_eq_nil' in E. destruct E as [E _]. now apply (delimited_nonempty t) in E.
  - rewrite wt_tup_eq in W. cbn [ty_ok] in O. destruct ts as [|t ts].
    + cbn in O. discriminate O.
    + destruct l as [|x l]; [discriminate W|]. cbn in W, E. bprop. apply app_eq_nil' in E. destruct E as [E _]. now apply (delimited_nonempty t) in E.
  - destruct l as [|[k1 x] l]; [reflexivity|]. cbn in E, W. bprop. rewrite <- app_assoc in E. apply app_eq_nil' in E. destruct E as [E _].
    now apply (delimited_nonempty k) in E.
  - cbn in *. f_equal. now apply IH.
  - rewrite ty_ok_struct in O, O'. rewrite wt_struct_eq in W. bprop. rewrite ev_struct in Ev. rewrite enc_struct in E. rewrite view_struct. cbn [dflt]. f_equal.
    change (view_fields r fts' fs0 = dflt_fields r fts'). unfold view_fields, dflt_fields. apply map_ext_in. intros [fj t'] J. cbn [view_field]. f_equal.
    destruct (find_field (f_tag fj) fs0) as [[fi x]|] eqn:F; [|reflexivity]. pose proof (find_field_in _ _ _ F) as I. pose proof (find_field_tag _ _ _ _ F) as T.
    destruct (in_wt fts fs0 fi x ltac:(assumption) I) as (t & It & Wx). rewrite (wt_vwty t x Wx). destruct (wtype_eqb (wty t') (wty t)) eqn:X; [|reflexivity].
    rewrite Forall_forall in IH. apply (view_left_out t); try assumption.
    + exact (IH _ It).
    + eapply (fun st H => proj1 (fields_ok_in st fts fi t H It)); eassumption.
    + eapply (fun st H => proj1 (fields_ok_in st fts' fj t' H J)); eassumption.
    + apply (ev_both fts fts' fi t fj t'); try assumption. now symmetry.
    + now apply (enc_fields_in fs0 fi).
  - rewrite enc_enum in E. apply app_eq_nil' in E. destruct E as [E _]. now apply leb128_nonempty in E.
  - destruct l as [|x l]; [reflexivity|cbn in E, W; bprop; apply app_eq_nil' in E; destruct E as [E _]; now apply (delimited_nonempty t) in E].
  - destruct es as [|[k1 x] l]; [reflexivity|cbn in E; apply app_eq_nil' in E; destruct E as [E _]; now apply enc_tagged_nonempty in E].
Qed.

(** ** Decoding *)

Definition EV (m : mode) (t : ty) : Prop := forall t' r v rest, ty_ok t = true -> ty_ok t' = true -> evolves t t' = true -> wt t v = true -> takes m t' v = true ->
  lenN (enc v) < 2 ^ 63 -> (wty t = Sized -> rest = []) -> merge m t' (dflt t' r) (enc v ++ rest) = (view t' r v, Ok rest).

Lemma nested_ev m t t' r v rest : EV m t -> ty_ok t = true -> ty_ok t' = true -> evolves t t' = true -> wt t v = true -> takes m t' v = true -> lenN (enc v) < 2 ^ 63 ->
  merge_nested m (wty t') (merge m t') (wty t') (dflt t' r) (delimited v (enc v) ++ rest) = (view t' r v, Ok rest).
Proof.
  intros H O O' E W T L. unfold merge_nested, delimited. rewrite (wt_vwty t v W), (evolves_wty t t' E).
  destruct (wty t) eqn:Y; cbn [wtype_eqb negb].
  - apply H; try assumption. congruence.
  - assert (L' : lenN (enc v) < 2 ^ 64) by (change (2 ^ 64) with (2 * 2 ^ 63); lia). rewrite <- app_assoc, rd_nested_spec by exact L'. cbn [try].
    pose proof (H t' r v [] O O' E W T L (fun _ => eq_refl)) as X. rewrite app_nil_r in X. now rewrite X.
Qed.
Lemma de_nested_ev m t t' r v rest : EV m t -> ty_ok t = true -> ty_ok t' = true -> evolves t t' = true -> wt t v = true -> takes m t' v = true -> lenN (enc v) < 2 ^ 63 ->
  de_nested m (wty t') (merge m t') (dflt t' r) (delimited v (enc v) ++ rest) = Ok (view t' r v, rest).
Proof. intros H O O' E W T L. unfold de_nested. now rewrite (nested_ev m t). Qed.

Lemma merge_field_ev m r fi x rest D : find_field (f_tag fi) D = None -> forall l, NoDup (map (fun p : finfo * ty => f_tag (fst p)) l) ->
  (forall fj t', In (fj, t') l -> f_tag fj = f_tag fi -> wty t' = vwty x ->
     merge_nested m (wty t') (merge m t') (wty t') (dflt t' (field_rt r fj)) (delimited x (enc x) ++ rest) = (view t' (field_rt r fj) x, Ok rest)) ->
  (match find_field (f_tag fi) l with Some (_, t') => wty t' <> vwty x | None => True end -> rd_skip_field m (vwty x) (delimited x (enc x) ++ rest) = Ok rest) ->
  merge_field m (fmergers m l) (view_fields r l D) (f_tag fi) (vwty x) (delimited x (enc x) ++ rest) = (view_fields r l (D ++ [(fi, x)]), Ok rest).
Proof.
  intros F. induction l as [|[fj t'] l IH]; intros Nd K Sk; [cbn; now rewrite Sk|]. inversion Nd as [|? ? N1 N2]; subst.
  cbn [fmergers map view_fields merge_field view_field]. destruct (f_tag fi =? f_tag fj) eqn:E.
  - apply N.eqb_eq in E. rewrite <- E, F, find_field_snoc, N.eqb_refl by exact F.
    assert (Tl : map (view_field r (D ++ [(fi, x)])) l = map (view_field r D) l).
    { apply map_ext_in. intros [fk u] I. cbn [view_field]. f_equal. rewrite find_field_snoc_other; [reflexivity|]. intros X. apply N1. cbn [fst]. rewrite <- E, <- X.
      now apply (in_map (fun p : finfo * ty => f_tag (fst p))) in I. }
    rewrite Tl. cbn [find_field] in Sk. rewrite E, N.eqb_refl in Sk.
    destruct (wtype_eqb (wty t') (vwty x)) eqn:W.
    + apply wtype_eqb_eq in W. rewrite <- W. rewrite (K fj t'); [reflexivity|now left|now symmetry|exact W].
    + unfold merge_nested. rewrite wtype_eqb_sym, W. cbn [negb]. rewrite Sk; [reflexivity|]. intros X. rewrite X, wtype_eqb_refl in W. discriminate W.
  - assert (Et : f_tag fj <> f_tag fi) by (intros X; rewrite X, N.eqb_refl in E; discriminate E). rewrite find_field_snoc_other by exact Et.
    change (map (fun p : finfo * ty => let '(fi0, t) := p in (f_tag fi0, (wty t, merge m t))) l) with (fmergers m l).
    change (map (view_field r D) l) with (view_fields r l D). rewrite IH; [reflexivity|exact N2|intros; apply K; auto; now right|].
    cbn [find_field] in Sk. now rewrite E in Sk.
Qed.

Lemma fields_ev m st' r fts fts' : fields_ok st' fts' = true -> nodupb (map (fun p : finfo * ty => f_tag (fst p)) fts') = true -> ev_fields fts fts' = true ->
  forall rem D, NoDup (map (fun p : finfo * val => f_tag (fst p)) (D ++ rem)) ->
  Forall (fun p : finfo * val => exists t, In (fst p, t) fts /\ wt t (snd p) = true /\ EV m t /\ ty_ok t = true /\ f_tag (fst p) <= FIELD_NUMBER_MAX) rem ->
  takes_fields m fts' rem = true -> lenN (enc_fields rem) < 2 ^ 63 ->
  run (struct_step m (fmergers m fts')) (view_fields r fts' D) (enc_fields rem) = (view_fields r fts' (D ++ rem), Ok []).
Proof.
  intros O' Nd' Ev. induction rem as [|[fi x] rem IH]; intros D Nd Fa T L; [now rewrite app_nil_r|].
  inversion Fa as [|? ? (t & I & W & H & O & Mx) Fa2]; subst. cbn [fst snd] in *. unfold takes_fields in T. cbn [forallb] in T. apply andb_prop in T. destruct T as [Tx T].
  assert (EA : D ++ (fi, x) :: rem = (D ++ [(fi, x)]) ++ rem) by now rewrite <- app_assoc.
  assert (F : find_field (f_tag fi) D = None).
  { apply find_field_none. rewrite map_app in Nd. cbn [map fst] in Nd. apply NoDup_remove_2 in Nd. intros X. apply Nd. apply in_app_iff. now left. }
  rewrite enc_fields_cons in *. cbn [fst snd] in *. rewrite lenN_app in L.
  assert (Next : run (struct_step m (fmergers m fts')) (view_fields r fts' (D ++ [(fi, x)])) (enc_fields rem) = (view_fields r fts' (D ++ (fi, x) :: rem), Ok [])).
  { rewrite EA. apply IH; try assumption; [now rewrite <- EA|lia]. }
  destruct (left_out x (enc x)) eqn:Lo.
  - cbn [app]. rewrite <- Next. f_equal. symmetry. apply (view_fields_left_out st' r fts fts' D fi t x); try assumption. apply view_empty.
  - rewrite run_step.
    2:{ apply struct_step_consuming, fields_suf. }
    2:{ pose proof (enc_tagged_nonempty (f_tag fi) x (enc x)). destruct (enc_tagged _ _ _); [congruence|discriminate]. }
    unfold struct_step at 1. unfold enc_tagged in *. rewrite <- !app_assoc. rewrite rd_tag_num by lia. cbn [try]. rewrite lenN_app in L.
    pose proof (delimited_len x (enc x)) as Dl.
    rewrite merge_field_ev; [cbn [try]; exact Next|exact F|now apply nodupb_nodup| |].
    + intros fj t' J Et Wt. pose proof (find_field_some fts' fj t' Nd' J) as Fj. rewrite Et in Fj. rewrite Fj, Wt, wtype_eqb_refl in Tx.
      apply (nested_ev m t); try assumption; [exact (proj1 (fields_ok_in _ _ _ _ O' J))| |lia].
      apply (ev_both fts fts' fi t fj t'); try assumption. rewrite Wt, (wt_vwty t x W). apply wtype_eqb_refl.
    + intros X. apply skip_ok; [apply whole_delimited; change (2 ^ 64) with (2 * 2 ^ 63); lia|].
      assert (Sh : short m x = true).
      { destruct (find_field (f_tag fi) fts') as [[fj t']|]; [|exact Tx]. destruct (wtype_eqb (wty t') (vwty x)) eqn:Y; [|exact Tx]. apply wtype_eqb_eq in Y. contradiction. }
      unfold skippable, short, delimited in *. destruct (vwty x); [|lia]. destruct m; [|now left]. right. lia.
Qed.

Lemma view_items_app t r i a b : view_items t r i (a ++ b) = view_items t r i a ++ view_items t r (i + lenN a) b.
Proof.
  revert i. induction a as [|x a IH]; intros i.
  - cbn. f_equal. unfold lenN. cbn. lia.
  - cbn [app view_items]. rewrite IH. do 3 f_equal. unfold lenN. cbn [length]. lia.
Qed.
Lemma view_items_len t r i l : length (view_items t r i l) = length l.
Proof. revert i. induction l as [|x l IH]; intros i; [reflexivity|]. cbn. now rewrite IH. Qed.

Section Items.
  Variables (m : mode) (t t' : ty).
  Hypothesis H : EV m t.
  Hypothesis O : ty_ok t = true.
  Hypothesis O' : ty_ok t' = true.
  Hypothesis E : evolves t t' = true.

  Lemma vec_ev l : forall pre, forallb (wt t) l = true -> forallb (takes m t') l = true -> lenN (flat_map (fun x => delimited x (enc x)) l) < 2 ^ 63 ->
    run (vec_step m (wty t') (merge m t') (dflt t' rt_default)) pre (flat_map (fun x => delimited x (enc x)) l) = (pre ++ map (view t' rt_default) l, Ok []).
  Proof.
    induction l as [|x l IH]; intros pre W T L.
    - cbn. now rewrite app_nil_r.
    - rewrite enc_items_cons in *. rewrite lenN_app in L. cbn [forallb] in *. bprop. pose proof (delimited_len x (enc x)).
      rewrite run_step; [|apply vec_step_consuming, merge_suf|].
      + unfold vec_step at 1. rewrite (de_nested_ev m t) by (assumption || lia). cbn [try]. rewrite IH by (assumption || lia). rewrite <- app_assoc. reflexivity.
      + pose proof (delimited_nonempty t x ltac:(assumption)). destruct (delimited _ _); [congruence|discriminate].
  Qed.
  Lemma list_ev r l : forall pre, forallb (wt t) l = true -> forallb (takes m t') l = true -> lenN (flat_map (fun x => delimited x (enc x)) l) < 2 ^ 63 ->
    run (list_step m (wty t') (merge m t') (fun i => dflt t' (nested r i))) pre (flat_map (fun x => delimited x (enc x)) l) = (pre ++ view_items t' r (lenN pre) l, Ok []).
  Proof.
    induction l as [|x l IH]; intros pre W T L.
    - cbn. now rewrite app_nil_r.
    - rewrite enc_items_cons in *. rewrite lenN_app in L. cbn [forallb] in *. bprop. pose proof (delimited_len x (enc x)).
      rewrite run_step; [|apply list_step_consuming, merge_suf|].
      + unfold list_step at 1. rewrite (nested_ev m t) by (assumption || lia). cbn [try]. rewrite IH by (assumption || lia). rewrite <- app_assoc. cbn [app view_items].
        do 4 f_equal. unfold lenN. rewrite app_length. cbn. lia.
      + pose proof (delimited_nonempty t x ltac:(assumption)). destruct (delimited _ _); [congruence|discriminate].
  Qed.
  Lemma arr_ev l : forallb (wt t) l = true -> forallb (takes m t') l = true -> lenN (flat_map (fun x => delimited x (enc x)) l) < 2 ^ 63 ->
    forall old, length old = length l ->
    arr_loop m (wty t') (merge m t') (dflt t' rt_default) old (flat_map (fun x => delimited x (enc x)) l) = (map (view t' rt_default) l, Ok []).
  Proof.
    induction l as [|x l IH]; intros W T L [|y old] Ln; try discriminate Ln; [reflexivity|].
    rewrite enc_items_cons in *. rewrite lenN_app in L. cbn [forallb] in *. bprop. pose proof (delimited_len x (enc x)).
    pose proof (delimited_nonempty t x ltac:(assumption)) as NE.
    assert (EQ1 : arr_loop m (wty t') (merge m t') (dflt t' rt_default) (y :: old)
       (delimited x (enc x) ++ flat_map (fun x0 => delimited x0 (enc x0)) l) =
       try (y :: old) (de_nested m (wty t') (merge m t') (dflt t' rt_default)
             (delimited x (enc x) ++ flat_map (fun x0 => delimited x0 (enc x0)) l)) (fun '(y, rest) =>
        let '(l'', r) := arr_loop m (wty t') (merge m t') (dflt t' rt_default) old rest in (y :: l'', r))).
    { cbn [arr_loop]. destruct (delimited x (enc x)); [congruence|reflexivity]. }
    rewrite EQ1. rewrite (de_nested_ev m t) by (assumption || lia). cbn [try]. rewrite IH; try assumption; [reflexivity|lia|now inversion Ln].
  Qed.
  Lemma map_ev kk' r l : forall pre,
    forallb (fun e : N * val => (fst e <? 2 ^ 32) && wt t (snd e)) l = true ->
    nodupb (map fst (pre ++ l)) = true ->
    forallb (fun e : N * val => let '(k, x) := e in (k <=? mkey_max kk') && (k <=? FIELD_NUMBER_MAX) && takes m t' x) l = true ->
    let en := flat_map (fun e : N * val => let '(k, x) := e in enc_tagged k x (enc x)) in
    let nm := map (fun e : N * val => (fst e, view t' (nested r (fst e)) (snd e))) in
    lenN (en l) < 2 ^ 63 ->
    run (map_step m kk' (wty t') (merge m t') (fun i => dflt t' (nested r i))) (nm pre) (en l) = (nm (pre ++ l), Ok []).
  Proof.
    induction l as [|[k x] l IH]; intros pre W D T en nm L.
    - cbn. now rewrite app_nil_r.
    - assert (EE : en ((k, x) :: l) = leb128 (tag_num k (vwty x)) ++ delimited x (enc x) ++ en l).
      { cbn. unfold enc_tagged. now rewrite <- app_assoc. }
      rewrite EE in *. rewrite !lenN_app in L. cbn [forallb fst snd] in *. bprop. pose proof (delimited_len x (enc x)).
      assert (New : forall e, In e (nm pre) -> fst e <> k).
      { intros e He X. unfold nm in He. apply in_map_iff in He. destruct He as ([k' x'] & <- & He). cbn [fst] in X. subst k'.
        apply nodupb_nodup in D. rewrite map_app in D. cbn [map fst] in D. apply NoDup_remove_2 in D. apply D, in_app_iff. left. now apply (in_map fst) in He. }
      rewrite run_step; [|apply map_step_consuming; apply merge_suf|].
      + unfold map_step at 1. rewrite uv_deserialize_leb; [|reflexivity|apply tag_num_bound; lia]. cbn [try].
        rewrite parse_tag_num by lia. cbn [try]. unfold validate_field_number.
        destruct (FIELD_NUMBER_MAX <? k) eqn:E1; [lia|]. cbn [try]. unfold key_of_fn. destruct (k <=? mkey_max kk') eqn:E2; [|lia]. cbn [try].
        rewrite assoc_none by exact New. rewrite (nested_ev m t) by (assumption || lia).
        cbn [try]. rewrite im_insert_new by exact New.
        assert (EN : nm pre ++ [(k, view t' (nested r k) x)] = nm (pre ++ [(k, x)])) by (unfold nm; rewrite map_app; reflexivity).
        rewrite EN. unfold en, nm. rewrite IH; try assumption.
        * rewrite <- app_assoc. reflexivity.
        * rewrite <- app_assoc. exact D.
        * fold en. lia.
      + pose proof (leb128_nonempty (tag_num k (vwty x))). destruct (leb128 _); [congruence|discriminate].
  Qed.
  Lemma opt_ev r x : wt t x = true -> takes m t' x = true -> lenN (enc x) < 2 ^ 63 ->
    run (opt_step m (wty t') (merge m t') (dflt t' r)) None (delimited x (enc x)) = (Some (view t' r x), Ok []).
  Proof.
    intros W L S. rewrite run_step; [|apply opt_step_consuming, merge_suf|now apply (delimited_nonempty t)].
    unfold opt_step at 1. pose proof (nested_ev m t t' r x [] H O O' E W L S) as X. rewrite app_nil_r in X. now rewrite X.
  Qed.
End Items.

Lemma tup_ev m ts : Forall (EV m) ts -> forallb ty_ok ts = true -> forall ts' l rest, forallb ty_ok ts' = true -> ev_list ts ts' = true -> wt_list ts l = true -> takes_list m l ts' = true ->
  lenN (flat_map (fun x => delimited x (enc x)) l) < 2 ^ 63 ->
  tup_read m (map (fun t => ((wty t, merge m t), dflt t rt_default)) ts') (flat_map (fun x => delimited x (enc x)) l ++ rest) = Ok (view_list ts' l, rest).
Proof.
  induction 1 as [|t ts H _ IH]; intros O [|t' ts'] [|x l] rest O' E W T L; try discriminate W; try discriminate E; [reflexivity|].
  rewrite enc_items_cons in *. rewrite lenN_app in L. cbn [forallb wt_list takes_list ev_list] in *. bprop. pose proof (delimited_len x (enc x)).
  cbn [map tup_read view_list]. rewrite <- app_assoc. rewrite (de_nested_ev m t) by (assumption || lia).
  cbn [bind]. rewrite IH by (assumption || lia). reflexivity.
Qed.

(** Keys of hash maps are the same in both versions. *)
Definition plain_key (kt kt' : ty) : bool :=
  match kt, kt' with TInt k, TInt k' => ikind_eqb k k' | TBool, TBool | TStr, TStr => true | _, _ => false end.
Lemma plain_key_eq kt kt' : plain_key kt kt' = true -> kt' = kt /\ evolves kt kt' = true.
Proof. destruct kt, kt'; intros H; try discriminate H; split; try reflexivity; cbn in *; try exact H. apply ikind_eqb_eq in H. now subst. Qed.
Lemma view_plain kt kt' r v : plain_key kt kt' = true -> wt kt v = true -> view kt' r v = v.
Proof. destruct kt, kt'; intros H W; try discriminate H; destruct v; try discriminate W; reflexivity. Qed.
Lemma hash_ev m kt kt' vt vt' : EV m kt -> EV m vt -> ty_ok kt = true -> ty_ok vt = true -> ty_ok vt' = true -> plain_key kt kt' = true -> evolves vt vt' = true -> forall l pre,
  forallb (fun e : val * val => wt kt (fst e) && wt vt (snd e)) l = true ->
  forallb (fun e : val * val => wt kt (fst e) && wt vt (snd e)) pre = true ->
  hkeys_distinct (pre ++ l) = true ->
  forallb (fun e : val * val => let '(k, x) := e in takes m kt' k && takes m vt' x) l = true ->
  let en := flat_map (fun e : val * val => let '(k, x) := e in delimited k (enc k) ++ delimited x (enc x)) in
  let nm := map (fun e : val * val => (view kt' rt_default (fst e), view vt' rt_default (snd e))) in
  lenN (en l) < 2 ^ 63 ->
  run (hash_step m (wty kt') (merge m kt') (dflt kt' rt_default) (wty vt') (merge m vt') (dflt vt' rt_default)) (nm pre) (en l) = (nm (pre ++ l), Ok []).
Proof.
  intros Hk Hv Ok_ Ov Ov' Pk Ev. destruct (plain_key_eq kt kt' Pk) as [-> Ek]. induction l as [|[k x] l IH]; intros pre W Wp D T en nm L.
  - cbn. now rewrite app_nil_r.
  - assert (EE : en ((k, x) :: l) = delimited k (enc k) ++ delimited x (enc x) ++ en l) by (cbn; now rewrite <- app_assoc).
    rewrite EE in *. rewrite !lenN_app in L. cbn [forallb fst snd] in *. bprop. pose proof (delimited_len x (enc x)). pose proof (delimited_len k (enc k)).
    rewrite run_step; [|apply hash_step_consuming; apply merge_suf|].
    + unfold hash_step at 1. rewrite (de_nested_ev m kt) by (assumption || lia). cbn [try]. rewrite (de_nested_ev m vt) by (assumption || lia). cbn [try].
      rewrite hash_insert_new.
      * assert (EN : nm pre ++ [(view kt rt_default k, view vt' rt_default x)] = nm (pre ++ [(k, x)])) by (unfold nm; rewrite map_app; reflexivity).
        rewrite EN. unfold en, nm. rewrite IH; try assumption.
        -- rewrite <- app_assoc. reflexivity.
        -- rewrite forallb_app. cbn. rewrite Wp, !andb_true_iff. auto.
        -- rewrite <- app_assoc. exact D.
        -- fold en. lia.
      * intros e He. unfold nm in He. apply in_map_iff in He. destruct He as ([k' x'] & <- & He). cbn [fst].
        assert (Wk' : wt kt k' = true) by (rewrite forallb_forall in Wp; specialize (Wp _ He); now bprop).
        rewrite !(view_plain kt kt) by assumption. apply not_true_is_false. intros X.
        destruct (veqb_equiv kt) as (_ & Sy & _). apply Sy in X; try assumption.
        apply in_split in He. destruct He as (a & b & ->). clear - D X.
        rewrite <- app_assoc in D. induction a as [|[q y] a IHa]; cbn [app hkeys_distinct] in D; bprop; [|auto].
        apply negb_true_iff in H. assert (existsb (fun e => veqb k' (fst e)) (b ++ (k, x) :: l) = true).
        { apply existsb_exists. exists (k, x). split; [|exact X]. apply in_app_iff. right. now left. }
        congruence.
    + pose proof (delimited_nonempty kt k ltac:(assumption)). destruct (delimited k _); [congruence|discriminate].
Qed.

Lemma fields_typed m fts fs st : Forall (fun p => EV m (snd p)) fts -> fields_ok st fts = true -> wt_fields fts fs = true ->
  Forall (fun p : finfo * val => exists t, In (fst p, t) fts /\ wt t (snd p) = true /\ EV m t /\ ty_ok t = true /\ f_tag (fst p) <= FIELD_NUMBER_MAX) fs.
Proof.
  intros H O W. apply Forall_forall. intros [fi x] I. destruct (in_wt fts fs fi x W I) as (t & It & Wx). exists t. cbn [fst snd].
  rewrite Forall_forall in H. destruct (fields_ok_in _ _ _ _ O It) as [A B]. repeat split; try assumption. exact (H _ It).
Qed.
Lemma ev_find vs vs' tag va va' : forallb (fun va : (N * bool) * list (finfo * ty) => match find_variant vs' (fst (fst va)) with Some va' => ev_fields (snd va) (snd va') | None => true end) vs = true ->
  find_variant vs tag = Some va -> find_variant vs' tag = Some va' -> ev_fields (snd va) (snd va') = true.
Proof.
  intros E F A. apply find_variant_in in F. destruct F as [I T]. rewrite forallb_forall in E. specialize (E _ I). cbn beta in E. now rewrite T, A in E.
Qed.

Lemma decode_ev m t : EV m t.
Proof.
  induction t as [k| | | |t IH|t IH|n t IH|ts IH|k t IHk IHt|t IH|si fts IH|st vs IH|t IH|k t IH] using ty_ind';
    intros t' r v rest O O' E W T L R; destruct t' as [k'| | | |t'|t'|n' t'|ts'|kt' vt'|t'|si' fts'|st' vs'|t'|k' t']; try discriminate E;
    destruct v as [| | | |o|l|l|l|l|v|cc r0 fs|tag cc r0 fs|r0 l|r0 es]; try discriminate W; try (specialize (R eq_refl); subst rest; rewrite app_nil_r).
  - cbn in E, W, T. bprop. apply ikind_eqb_eq in E. subst k'. match goal with X : ikind_eqb _ _ = true |- _ => apply ikind_eqb_eq in X; subst end.
    cbn [merge dflt enc view]. match goal with |- context [ikind_eqb ?a ?a] => replace (ikind_eqb a a) with true by (now destruct a) end.
    rewrite int_roundtrip by assumption. cbn [try]. now rewrite int_back_safe.
  - cbn [merge dflt enc view]. change [if b then 1 else 0] with (bool_serialize b). now rewrite (bool_roundtrip b rest).
  - cbn in *. bprop. now rewrite H0.
  - reflexivity.
  - destruct o as [x|]; [|reflexivity]. cbn [wt ty_ok enc dflt merge view takes evolves] in *. pose proof (delimited_len x (enc x)).
    rewrite (opt_ev m t) by (assumption || lia). reflexivity.
  - cbn [wt ty_ok enc dflt merge view takes evolves] in *. rewrite (vec_ev m t) by assumption. reflexivity.
  - cbn [wt ty_ok enc dflt merge view takes evolves] in *. bprop.
    rewrite (arr_ev m t t' IH) by (assumption || (rewrite repeat_length; lia)). reflexivity.
  - rewrite wt_tup_eq in W. rewrite ev_tup in E. rewrite takes_tup in T. rewrite view_tup. cbn [enc dflt merge] in *.
    assert (A : forallb ty_ok ts = true) by (cbn in O; bprop; assumption). assert (A' : forallb ty_ok ts' = true) by (cbn in O'; bprop; assumption).
    pose proof (tup_ev m ts IH A ts' l [] A' E W T L) as X. rewrite app_nil_r in X. now rewrite X.
  - cbn [wt ty_ok enc dflt merge view takes] in *. change (plain_key k kt' && evolves t vt' = true) in E. bprop.
    pose proof (hash_ev m k kt' t vt' IHk IHt ltac:(assumption) ltac:(assumption) ltac:(assumption) ltac:(assumption) ltac:(assumption) l []) as X. cbn [map app] in X.
    rewrite X by (assumption || reflexivity). reflexivity.
  - cbn [wt ty_ok enc dflt merge view takes evolves wty] in *. rewrite IH by assumption. reflexivity.
  - rewrite ty_ok_struct in O, O'. rewrite wt_struct_eq in W. bprop. rewrite ev_struct in E. rewrite takes_struct in T. rewrite view_struct.
    cbn [dflt]. rewrite merge_struct, enc_struct in *. change (map _ fts') with (dflt_fields r fts'). rewrite <- view_fields_nil.
    rewrite (fields_ev m (s_state si') r fts fts') by (try assumption; try (now apply (fields_nodup fts)); eapply fields_typed; eassumption). reflexivity.
  - rewrite ev_enum in E. rewrite takes_enum in T. rewrite view_enum. destruct (wt_enum_inv _ _ _ _ _ _ W) as (c1 & fts & F & -> & Wf & _).
    destruct (find_variant vs' tag) as [[[tg' c'] fts']|] eqn:F'; [|discriminate T]. pose proof (ev_find _ _ _ _ _ E F F') as Ef. cbn [fst snd] in *.
    pose proof (find_variant_in _ _ _ F) as [Iv _]. pose proof (find_variant_in _ _ _ F') as [Iv' Ev']. cbn in Ev'. subst tg'.
    pose proof (variant_fields_ok st vs _ O Iv) as (FM & FO & FN). pose proof (variant_fields_ok st' vs' _ O' Iv') as (FM' & FO' & FN'). cbn [fst snd] in *.
    rewrite dflt_enum. pose proof O' as O2. rewrite ty_ok_enum in O2. bprop.
    match goal with X : existsb _ vs' = true |- _ => destruct (find_variant_exists vs' X) as ([[tg0 c0] ts0] & F0) end.
    rewrite F0. pose proof (find_variant_in _ _ _ F0) as [_ Ev0]. cbn in Ev0. subst tg0.
    unfold variant_ctor. rewrite merge_enum, enc_enum in *.
    rewrite uv_deserialize_leb; [|reflexivity|unfold FIELD_NUMBER_MAX in FM; change (2 ^ 32) with 4294967296; lia].
    cbn [try]. rewrite F'.
    assert (D : (if 0 =? tag then Ok (VEnum 0 c0 (if st' then Some (nested r 0) else None) (dflt_fields (nested r 0) ts0))
        else do p <- enum_parent (if st' then Some (nested r 0) else None); Ok (variant_ctor st' ((tag, c'), fts') p)) =
       Ok (VEnum tag c' (if st' then Some (nested r tag) else None) (dflt_fields (nested r tag) fts'))).
    { destruct (0 =? tag) eqn:Z.
      - assert (tag = 0) by lia. subst tag. rewrite F0 in F'. inversion F'; subst. reflexivity.
      - destruct st'; cbn [enum_parent nested bind rt_path rt_log].
        + destruct r as [lg p]. reflexivity.
        + unfold variant_ctor. do 2 f_equal. now apply (field_rt_nostate false). }
    rewrite D. cbn [try snd]. rewrite lenN_app in L. rewrite <- view_fields_nil.
    assert (G : Forall (fun p => EV m (snd p)) fts) by (rewrite Forall_forall in IH; exact (IH _ Iv)).
    rewrite (fields_ev m st' (nested r tag) fts fts'); try assumption; [reflexivity|now apply (fields_nodup fts)|eapply fields_typed; eassumption|lia].
  - cbn [ty_ok wt enc dflt merge takes evolves] in *. bprop. rewrite view_list_eq. rewrite (list_ev m t) by assumption. reflexivity.
  - cbn [ty_ok wt enc dflt merge view takes evolves] in *. bprop.
    pose proof (map_ev m t t' IH ltac:(assumption) ltac:(assumption) E k' r es []) as X. cbn [map app] in X. rewrite X by assumption. reflexivity.
Qed.
