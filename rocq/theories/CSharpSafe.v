(** What a C# client does with arbitrary bytes: proofs for C53 and C54. *)
From Verif Require Import Base Varint WireFmt Utf8 Types Ser Spec De Log State StateSpec ValInd VarintProofs WireProofs SerProofs TypeProofs DeProofs RoundTrip CSharp CSharpProofs CSharpSim.

Fixpoint cwt_fields (cfs : list (N * (bool * cty))) (xs : list (N * cval)) : bool :=
  match cfs, xs with
  | [], [] => true
  | (tag, (_, c)) :: cfs', (tag', x) :: xs' => (tag =? tag') && cwt c x && cwt_fields cfs' xs'
  | _, _ => false
  end.
Lemma cwt_struct cfs xs : cwt (CStruct cfs) (CVStruct xs) = cwt_fields cfs xs. Proof. reflexivity. Qed.
Lemma cwt_enum vs tag xs : cwt (CEnum vs) (CVEnum tag xs) = match assoc tag vs with Some cfs => cwt_fields cfs xs | None => false end.
Proof.
  cbn [cwt]. induction vs as [|[tag' cfs] vs IH]; [reflexivity|]. cbn [assoc]. rewrite N.eqb_sym. destruct (tag =? tag'); [reflexivity|exact IH].
Qed.

(** Classes of which objects can be made (if [Construct] allows): enums have a variant 0. *)
Fixpoint cgen (c : cty) : bool :=
  let fields := forallb (fun f : N * (bool * cty) => let '(_, (_, c)) := f in cgen c) in
  match c with
  | CInt _ | CBool | CStr | CBytes => true
  | COpt c | CVec c | CList c | CMap c => cgen c
  | CStruct fs => fields fs
  | CEnum vs => existsb (fun v => fst v =? 0) vs && forallb (fun v : N * list (N * (bool * cty)) => fields (snd v)) vs
  end.
Definition cgen_fields (fs : list (N * (bool * cty))) : bool := forallb (fun f : N * (bool * cty) => let '(_, (_, c)) := f in cgen c) fs.

Section Ind.
  Variable P : cty -> Prop.
  Hypothesis HI : forall k, P (CInt k).
  Hypothesis HB : P CBool.
  Hypothesis HS : P CStr.
  Hypothesis HY : P CBytes.
  Hypothesis HO : forall c, P c -> P (COpt c).
  Hypothesis HV : forall c, P c -> P (CVec c).
  Hypothesis HL : forall c, P c -> P (CList c).
  Hypothesis HM : forall c, P c -> P (CMap c).
  Hypothesis HT : forall fs, Forall (fun f : N * (bool * cty) => P (snd (snd f))) fs -> P (CStruct fs).
  Hypothesis HE : forall vs, Forall (fun v : N * list (N * (bool * cty)) => Forall (fun f => P (snd (snd f))) (snd v)) vs -> P (CEnum vs).
  Fixpoint cty_slots (c : cty) : P c :=
    let fields := fix fields fs : Forall (fun f : N * (bool * cty) => P (snd (snd f))) fs :=
      match fs with
      | [] => Forall_nil _
      | f :: fs' => Forall_cons f (cty_slots (snd (snd f))) (fields fs')
      end in
    match c with
    | CInt k => HI k
    | CBool => HB
    | CStr => HS
    | CBytes => HY
    | COpt c => HO c (cty_slots c)
    | CVec c => HV c (cty_slots c)
    | CList c => HL c (cty_slots c)
    | CMap c => HM c (cty_slots c)
    | CStruct fs => HT fs (fields fs)
    | CEnum vs => HE vs ((fix go vs : Forall (fun v : N * list (N * (bool * cty)) => Forall (fun f => P (snd (snd f))) (snd v)) vs :=
        match vs with
        | [] => Forall_nil _
        | v :: vs' => Forall_cons v (fields (snd v)) (go vs')
        end) vs)
    end.
End Ind.

(** ** Results: a value or an exception, nothing else *)

Definition oks {A} (P : A -> Prop) (r : res A) : Prop := match r with Ok a => P a | Panic => True | _ => False end.
Lemma oks_bind {A B} (P : A -> Prop) (Q : B -> Prop) r (k : A -> res B) : oks P r -> (forall a, P a -> oks Q (k a)) -> oks Q (bind r k).
Proof. destruct r; cbn; auto; contradiction. Qed.
Lemma oks_imp {A} (P Q : A -> Prop) r : oks P r -> (forall a, P a -> Q a) -> oks Q r.
Proof. destruct r; cbn; auto. Qed.

(** A reader leaves fewer bytes than it got. *)
Definition shorter (bs rest : bytes) : Prop := (length rest < length bs)%nat.
Lemma c_varint_oks bs : forall off v, oks (fun p => shorter bs (snd p)) (c_varint bs off v).
Proof.
  induction bs as [|b bs IH]; intros off v; [exact I|]. cbn [c_varint]. unfold shorter in *. destruct (N.land b 128 =? 0); [cbn; lia|].
  eapply oks_imp; [apply IH|]. cbn. intros [n r]. cbn. lia.
Qed.
Lemma c_bool_oks bs : forall v, oks (fun p => shorter bs (snd p)) (c_bool bs v).
Proof.
  induction bs as [|b bs IH]; intros v; [exact I|]. cbn [c_bool]. unfold shorter in *. destruct (N.land b 128 =? 0); [cbn; lia|].
  eapply oks_imp; [apply IH|]. cbn. intros [n r]. cbn. lia.
Qed.
Lemma swrap_range b z : 0 < b -> (- 2 ^ (Z.of_N b - 1) <= swrap b z < 2 ^ (Z.of_N b - 1))%Z.
Proof.
  intros H. unfold swrap. pose proof (Z.mod_pos_bound z (2 ^ Z.of_N b) ltac:(apply Z.pow_pos_nonneg; lia)) as B.
  assert (E : (2 ^ Z.of_N b = 2 * 2 ^ (Z.of_N b - 1))%Z) by (rewrite <- Z.pow_succ_r by lia; f_equal; lia).
  replace (2 ^ Z.of_N b / 2)%Z with (2 ^ (Z.of_N b - 1))%Z by (rewrite E, Z.mul_comm, Z.div_mul; lia).
  destruct (_ <? _)%Z eqn:L; lia.
Qed.
Lemma c_int_oks k bs : oks (fun p => in_range k (fst p) = true /\ shorter bs (snd p)) (c_int k bs).
Proof.
  unfold c_int. eapply oks_bind; [apply c_varint_oks|]. intros [n r] H. cbn [oks fst snd] in *. split; [|exact H]. unfold in_range.
  destruct (isigned k) eqn:S.
  - pose proof (swrap_range (ibits k) (c_unzigzag n) ltac:(destruct k; cbn; lia)). lia.
  - assert (n mod 2 ^ ibits k < 2 ^ ibits k) by (apply N.mod_lt, N.pow_nonzero; lia).
    pose proof (N2Z.inj_pow 2 (ibits k)) as E. change (Z.of_N 2) with 2%Z in E. lia.
Qed.
Lemma c_key_oks bs : oks (fun p => fst (fst p) < 2 ^ 32 /\ shorter bs (snd p)) (c_key bs).
Proof.
  unfold c_key. eapply oks_bind; [apply c_varint_oks|]. intros [n r] H. cbn [snd] in H.
  assert (B : N.shiftr (n mod 2 ^ 32) 3 < 2 ^ 32).
  { rewrite N.shiftr_div_pow2. eapply N.le_lt_trans; [apply N.div_le_upper_bound with (q := n mod 2 ^ 32); [discriminate|]|apply N.mod_lt; discriminate].
    change (2 ^ 3) with 8. lia. }
  cbv zeta. destruct (N.land (n mod 2 ^ 32) 7) as [|p]; [now split|]. destruct p as [p|[p|p|]|]; try exact I. now split.
Qed.
Lemma c_nested_oks bs : oks (fun p => (length (fst p) < length bs)%nat /\ shorter bs (snd p)) (c_nested bs).
Proof.
  unfold c_nested. eapply oks_bind; [apply c_varint_oks|]. intros [n r] H. cbn [snd] in H. unfold shorter in *.
  destruct (_ || _); [exact I|]. cbn [oks]. destruct (splitN _ r) as [a b] eqn:E. apply splitN_concat in E. subst r. rewrite app_length in H. cbn [fst snd]. lia.
Qed.

Lemma cloop_oks {S} (P : S -> Prop) step : (forall s bs, P s -> bs <> [] -> oks (fun p => P (fst p) /\ shorter bs (snd p)) (step s bs)) ->
  forall fuel s bs, P s -> (length bs <= fuel)%nat -> oks P (cloop fuel step s bs).
Proof.
  intros H. induction fuel as [|fuel IH]; intros s bs Ps L; destruct bs as [|b bs]; try exact Ps; [cbn in L; lia|]. cbn [cloop].
  eapply oks_bind; [apply H; [exact Ps|discriminate]|]. intros [s' r] [Ps' Sh]. cbn in *. unfold shorter in Sh. apply IH; [exact Ps'|cbn in *; lia].
Qed.

(** ** Fresh objects *)

Definition CN (c : cty) : Prop := cgen c = true -> oks (fun w => cwt c w = true) (c_new c).
Lemma new_fields_oks fs : Forall (fun f : N * (bool * cty) => CN (snd (snd f))) fs -> cgen_fields fs = true ->
  oks (fun xs => cwt_fields fs xs = true) (c_new_fields fs).
Proof.
  induction 1 as [|[tag [g c]] fs Hc _ IH]; intros G; [reflexivity|]. cbn [c_new_fields]. cbn in G. apply andb_prop in G. destruct G as [G G'].
  eapply oks_bind with (P := fun x => cwt c x = true); [destruct (g && _); [exact I|now apply Hc]|]. intros x Hx.
  eapply oks_bind; [now apply IH|]. intros xs Hxs. cbn [oks cwt_fields]. now rewrite N.eqb_refl, Hx, Hxs.
Qed.
Lemma cgen_assoc vs tag fs : forallb (fun v : N * list (N * (bool * cty)) => cgen_fields (snd v)) vs = true -> assoc tag vs = Some fs -> cgen_fields fs = true.
Proof. intros H A. rewrite forallb_forall in H. apply (H (tag, fs)). now apply assoc_in. Qed.
Lemma c_new_oks c : CN c.
Proof.
  induction c using cty_slots; intros G; try reflexivity.
  - now destruct k.
  - rewrite c_new_struct. eapply oks_bind; [now apply new_fields_oks|]. intros xs X. exact X.
  - rewrite c_new_enum. cbn [cgen] in G. apply andb_prop in G. destruct G as [E G].
    destruct (assoc 0 vs) as [fs|] eqn:A.
    + rewrite Forall_forall in H. eapply oks_bind; [apply new_fields_oks; [apply (H (0, fs)); now apply assoc_in|now apply (cgen_assoc vs 0)]|].
      intros xs X. cbn [oks]. now rewrite cwt_enum, A.
    + exfalso. apply existsb_exists in E. destruct E as [[tag fs] [I Z]]. cbn in Z. apply N.eqb_eq in Z. subst tag.
      apply (proj1 (assoc_some_in 0 vs)); [|exact A]. apply in_map_iff. now exists (0, fs).
Qed.

(** ** Decoding *)

Lemma cwt_put cfs : forall xs tag x, cwt_fields cfs xs = true -> (forall g c, assoc tag cfs = Some (g, c) -> cwt c x = true) -> cwt_fields cfs (c_put tag x xs) = true.
Proof.
  induction cfs as [|[tag' [g c]] cfs IH]; intros [|[tag'' y] xs] tag x H K; try discriminate; [reflexivity|]. cbn [cwt_fields c_put] in *.
  apply andb_prop in H. destruct H as [H H']. apply andb_prop in H. destruct H as [E Hy]. apply N.eqb_eq in E. subst tag''. cbn [assoc] in K.
  destruct (tag =? tag') eqn:E; cbn [cwt_fields]; rewrite N.eqb_refl.
  - rewrite (K g c eq_refl). exact H'.
  - rewrite Hy. cbn [andb]. apply IH; assumption.
Qed.
Lemma cwt_insert c k x es : nodupb (map fst es) && forallb (fun e : N * cval => (fst e <? 2 ^ 32) && cwt c (snd e)) es = true ->
  k < 2 ^ 32 -> cwt c x = true -> cwt (CMap c) (CVMap (im_insert k x es)) = true.
Proof.
  intros H K X. apply andb_prop in H. destruct H as [H H']. cbn [cwt]. apply andb_true_intro. split.
  - apply nodup_nodupb, nodup_im, nodupb_nodup, H.
  - clear H. induction es as [|[k' y] es IH]; cbn [im_insert forallb fst snd] in *.
    + apply N.ltb_lt in K. now rewrite K, X.
    + apply andb_prop in H'. destruct H' as [A B]. destruct (k =? k') eqn:E; cbn [forallb fst snd].
      * apply andb_prop in A. destruct A as [A _]. now rewrite A, X, B.
      * rewrite A. now apply IH.
Qed.

Definition CDS (c : cty) : Prop := cgen c = true -> forall bs, oks (fun p => cwt c (fst p) = true /\ (length (snd p) <= length bs)%nat /\ (c_wty c = Varint -> shorter bs (snd p))) (c_deser c bs).
Lemma c_value_oks c bs : CDS c -> cgen c = true -> oks (fun p => cwt c (fst p) = true /\ shorter bs (snd p)) (c_value c (c_deser c) bs).
Proof.
  intros H G. unfold c_value. destruct (c_wty c) eqn:W.
  - eapply oks_imp; [apply H, G|]. intros [x r] (A & _ & B). auto.
  - eapply oks_bind; [apply c_nested_oks|]. intros [sub r] [_ Sh]. eapply oks_bind; [apply H, G|]. intros [x r'] [A _]. now split.
Qed.
Lemma assoc_readers cfs tag : assoc tag (c_readers cfs) = match assoc tag cfs with Some (g, c) => Some (c_field_wty g c, c_deser c) | None => None end.
Proof. induction cfs as [|[tag' [g c]] cfs IH]; [reflexivity|]. cbn. destruct (tag =? tag'); [reflexivity|exact IH]. Qed.
Lemma c_struct_step_oks cfs xs bs : Forall (fun f : N * (bool * cty) => CDS (snd (snd f))) cfs -> cgen_fields cfs = true -> cwt_fields cfs xs = true ->
  oks (fun p => cwt_fields cfs (fst p) = true /\ shorter bs (snd p)) (c_struct_step (c_readers cfs) xs bs).
Proof.
  intros F G W. unfold c_struct_step. eapply oks_bind; [apply c_key_oks|]. intros [[tag w] rest] [_ Sh]. cbn [fst snd] in Sh. unfold shorter in *.
  eapply oks_bind with (P := fun p => match w with Varint => p = (rest, rest) | Sized => shorter rest (snd p) end).
  { destruct w; [reflexivity|]. eapply oks_imp; [apply c_nested_oks|]. intros [a b] [_ X]. exact X. }
  intros [sub rest'] R. cbv zeta.
  assert (Sk : oks (fun p => cwt_fields cfs (fst p) = true /\ (length (snd p) < length bs)%nat)
    (match w with Varint => do (_, rest) <- c_bool rest' false; Ok (xs, rest) | Sized => Ok (xs, rest') end)).
  { destruct w.
    - injection R as -> ->. eapply oks_bind; [apply c_bool_oks|]. intros [b r] X. unfold shorter in X. cbn in *. split; [exact W|lia].
    - unfold shorter in R. cbn in *. split; [exact W|lia]. }
  rewrite assoc_readers. destruct (assoc tag cfs) as [[g c]|] eqn:A; [|exact Sk].
  destruct (wtype_eqb w (c_field_wty g c)) eqn:E; [|exact Sk].
  pose proof (assoc_in _ _ _ A) as I. rewrite Forall_forall in F. pose proof (F _ I) as Hc. cbn in Hc.
  unfold cgen_fields in G. rewrite forallb_forall in G. pose proof (G _ I) as Gc. cbn in Gc.
  eapply oks_bind; [apply Hc, Gc|]. intros [x rem] (X & Y & _). cbn [fst snd] in *. split.
  - apply cwt_put; [exact W|]. intros g' c' A'. congruence.
  - destruct w; cbn [snd]; [injection R; intros; subst; lia|]. unfold shorter in R. cbn in R. lia.
Qed.
Lemma c_fields_oks cfs xs bs : Forall (fun f : N * (bool * cty) => CDS (snd (snd f))) cfs -> cgen_fields cfs = true -> cwt_fields cfs xs = true ->
  oks (fun xs => cwt_fields cfs xs = true) (crun (c_struct_step (c_readers cfs)) xs bs).
Proof. intros F G W. apply (cloop_oks (fun xs => cwt_fields cfs xs = true)); [intros; now apply c_struct_step_oks|exact W|lia]. Qed.
Lemma c_items_oks c bs : CDS c -> cgen c = true -> oks (fun l => forallb (cwt c) l = true) (crun (c_item_step c (c_deser c)) [] bs).
Proof.
  intros H G. apply (cloop_oks (fun l => forallb (cwt c) l = true)); [|reflexivity|lia]. intros l b L _. unfold c_item_step.
  eapply oks_bind; [now apply c_value_oks|]. intros [x r] [A B]. cbn in *. split; [|exact B]. rewrite forallb_app, L. cbn. now rewrite A.
Qed.
Lemma c_deser_oks c : CDS c.
Proof.
  induction c using cty_slots; intros G bs.
  - cbn [c_deser]. eapply oks_bind; [apply c_int_oks|]. intros [z r] [A B]. unfold shorter in *. cbn in *. repeat split; [exact A|lia|auto].
  - cbn [c_deser]. eapply oks_bind; [apply c_bool_oks|]. intros [z r] B. unfold shorter in *. cbn in *. repeat split; [lia|auto].
  - cbn. repeat split; [lia|discriminate].
  - cbn. repeat split; [lia|discriminate].
  - cbn [c_deser]. destruct bs as [|b bs]; [cbn; repeat split; [lia|discriminate]|].
    eapply oks_bind; [now apply c_value_oks|]. intros [x r] [A B]. unfold shorter in B. cbn in *. repeat split; [exact A|lia|discriminate].
  - cbn [c_deser]. eapply oks_bind; [now apply c_items_oks|]. intros l A. cbn. repeat split; [exact A|lia|discriminate].
  - cbn [c_deser]. eapply oks_bind; [now apply c_items_oks|]. intros l A. cbn. repeat split; [exact A|lia|discriminate].
  - cbn [c_deser]. eapply oks_bind with (P := fun es => cwt (CMap c) (CVMap es) = true).
    + apply (cloop_oks (fun es => cwt (CMap c) (CVMap es) = true)); [|reflexivity|lia]. intros es b L _. unfold c_map_step.
      eapply oks_bind; [apply c_key_oks|]. intros [[k w] r] [K S]. eapply oks_bind; [now apply c_value_oks|]. intros [x r'] [A B]. unfold shorter in *. cbn [fst snd oks] in *.
      split; [now apply cwt_insert|lia].
    + intros l A. split; [exact A|]. cbn. split; [lia|discriminate].
  - rewrite c_deser_struct. eapply oks_bind; [apply new_fields_oks; [|exact G]|].
    { apply Forall_forall. intros f _. apply c_new_oks. }
    intros xs X. eapply oks_bind; [now apply c_fields_oks|]. intros ys Y. split; [exact Y|]. cbn. split; [lia|discriminate].
  - rewrite c_deser_enum. eapply oks_bind; [apply (c_new_oks (CEnum vs)), G|]. intros d D. eapply oks_bind; [apply c_int_oks|]. intros [tag rest] _.
    cbn [cgen] in G. apply andb_prop in G. destruct G as [_ G]. destruct (assoc (Z.to_N tag) vs) as [fs|] eqn:A.
    + rewrite Forall_forall in H. pose proof (H _ (assoc_in _ _ _ A)) as F. pose proof (cgen_assoc vs _ _ G A) as Gf.
      eapply oks_bind; [apply new_fields_oks; [|exact Gf]|].
      { apply Forall_forall. intros f _. apply c_new_oks. }
      intros xs X. eapply oks_bind; [now apply c_fields_oks|]. intros ys Y. split; [cbn [fst]; now rewrite cwt_enum, A|]. cbn. split; [lia|discriminate].
    + split; [exact D|]. cbn. split; [lia|discriminate].
Qed.

(** ** Replaying *)

Definition seg32 (p : list N) : Prop := Forall (fun n => n < 2 ^ 32) p.
Lemma cwt_assoc cfs : forall xs tag g c, cwt_fields cfs xs = true -> assoc tag cfs = Some (g, c) -> exists x, assoc tag xs = Some x /\ cwt c x = true.
Proof.
  induction cfs as [|[tag' [g' c']] cfs IH]; intros [|[tag'' y] xs] tag g c H A; try discriminate. cbn [cwt_fields assoc] in *.
  apply andb_prop in H. destruct H as [H H']. apply andb_prop in H. destruct H as [E Hy]. apply N.eqb_eq in E. subst tag''.
  destruct (tag =? tag'); [injection A as -> ->; eauto|eauto].
Qed.
Lemma cgen_in cfs tag g c : cgen_fields cfs = true -> assoc tag cfs = Some (g, c) -> cgen c = true.
Proof. intros H A. unfold cgen_fields in H. rewrite forallb_forall in H. apply assoc_in in A. exact (H _ A). Qed.
Lemma forallb_set {A} (P : A -> bool) l : forall i x, forallb P l = true -> P x = true -> forallb P (set_nth l i x) = true.
Proof.
  induction l as [|y l IH]; intros [|i] x H X; cbn in *; try reflexivity; apply andb_prop in H; destruct H as [H H']; [now rewrite X|].
  rewrite H. now apply IH.
Qed.
Lemma forallb_nth {A} (P : A -> bool) l i x : forallb P l = true -> nth_error l i = Some x -> P x = true.
Proof. intros H E. rewrite forallb_forall in H. apply H. now apply nth_error_In in E. Qed.
Lemma forallb_removelast {A} (P : A -> bool) l : forallb P l = true -> forallb P (removelast l) = true.
Proof.
  induction l as [|x l IH]; [reflexivity|]. intros H. cbn [forallb] in H. apply andb_prop in H. destruct H as [H H']. destruct l; [reflexivity|].
  change (forallb P (x :: removelast (a :: l)) = true). cbn [forallb]. rewrite H. now apply IH.
Qed.

Lemma c_child_oks c w tag : cgen c = true -> c_state c = true -> cwt c w = true ->
  oks (fun o => match o with
    | None => True
    | Some (c', x) => cgen c' = true /\ c_state c' = true /\ cwt c' x = true /\ forall x', cwt c' x' = true -> cwt c (c_put_child w tag x') = true
    end) (c_child c w tag).
Proof.
  intros G S W. destruct c; try discriminate; destruct w; try discriminate; try exact I; cbn [c_child].
  - (* list *) destruct (c_state c) eqn:E; [|exact I]. cbn [oks]. destruct (nth_error l (N.to_nat tag)) as [x|] eqn:Nx; [|exact I].
    repeat split; [exact G|exact E|exact (forallb_nth _ _ _ _ W Nx)|]. intros x' X. cbn [c_put_child]. apply (forallb_set (cwt c)); assumption.
  - (* map *) destruct (c_state c) eqn:E; [|exact I]. cbn [oks]. destruct (assoc tag es) as [x|] eqn:A; [|exact I].
    pose proof W as W0. cbn [cwt] in W. apply andb_prop in W. destruct W as [_ W]. rewrite forallb_forall in W. pose proof (W _ (assoc_in _ _ _ A)) as X. cbn in X.
    apply andb_prop in X. destruct X as [K X]. repeat split; [exact G|exact E|exact X|]. intros x' X'. cbn [c_put_child].
    rewrite c_put_im by congruence. apply N.ltb_lt in K. now apply cwt_insert.
  - (* struct *) destruct (assoc tag fs) as [[g c]|] eqn:A; [|exact I]. destruct (c_state c) eqn:E; [|exact I].
    destruct (cwt_assoc fs fs0 tag g c W A) as (x & Ax & Wx). rewrite Ax. cbn [oks]. repeat split; [exact (cgen_in _ _ _ _ G A)|exact E|exact Wx|].
    intros x' X. cbn [c_put_child]. rewrite cwt_struct. apply cwt_put; [exact W|]. intros g' c' A'. congruence.
  - (* enum *) destruct (tag =? tag0) eqn:E; [|exact I]. apply N.eqb_eq in E. subst tag0. rewrite cwt_enum in W. destruct (assoc tag vs) as [cfs|] eqn:A; [|discriminate].
    cbn [oks]. cbn [cgen] in G. apply andb_prop in G. destruct G as [_ G]. repeat split; [exact (cgen_assoc _ _ _ G A)|exact W|].
    intros x' X. destruct x'; try discriminate. cbn [c_put_child]. now rewrite cwt_enum, A.
Qed.

Definition op_oks (op : cty -> cval -> res cval) : Prop := forall c w, cgen c = true -> c_state c = true -> cwt c w = true -> oks (fun w' => cwt c w' = true) (op c w).
Lemma c_modify_oks op : op_oks op -> forall path c w, cgen c = true -> c_state c = true -> cwt c w = true -> oks (fun w' => cwt c w' = true) (c_modify c w path op).
Proof.
  intros Op. induction path as [|tag path IH]; intros c w G S W; cbn [c_modify]; [now apply Op|].
  eapply oks_bind; [now apply c_child_oks|]. intros [[c' x]|]; [|intros _; exact W]. intros (G' & S' & W' & P).
  eapply oks_bind; [now apply IH|]. intros x' X. now apply P.
Qed.
Lemma c_deser_fst c bs : cgen c = true -> oks (fun p => cwt c (fst p) = true) (c_deser c bs).
Proof. intros G. eapply oks_imp; [now apply c_deser_oks|]. intros p H. apply H. Qed.
Lemma c_replace_oks tag bs : tag < 2 ^ 32 -> op_oks (c_replace_at tag bs).
Proof.
  intros T c w G S W. destruct c; try discriminate; destruct w; try discriminate; try exact W; cbn [c_replace_at].
  - destruct (_ <=? _); [exact I|]. eapply oks_bind; [now apply c_deser_fst|]. intros [x r] X. apply (forallb_set (cwt c)); [exact W|exact X].
  - eapply oks_bind; [now apply c_deser_fst|]. intros [x r] X. now apply cwt_insert.
  - destruct (assoc tag fs) as [[g c]|] eqn:A; [|exact W]. eapply oks_bind; [apply c_deser_fst; exact (cgen_in _ _ _ _ G A)|]. intros [x r] X.
    cbn [oks]. rewrite cwt_struct. apply cwt_put; [exact W|]. intros g' c' A'. cbn in X. congruence.
  - destruct (assoc tag vs) as [cfs|] eqn:A; [|exact W]. cbn [cgen] in G. apply andb_prop in G. destruct G as [_ G].
    eapply oks_bind; [apply (c_deser_fst (CStruct cfs)); exact (cgen_assoc _ _ _ G A)|]. intros [x r] X. cbn [fst] in X. destruct x; try discriminate.
    cbn [oks]. now rewrite cwt_enum, A.
Qed.
Lemma c_push_oks bs : op_oks (c_push bs).
Proof.
  intros c w G S W. destruct c; try exact I. destruct w; try exact I. cbn [c_push]. eapply oks_bind; [now apply c_deser_fst|]. intros [x r] X.
  cbn [oks cwt]. rewrite forallb_app. cbn in *. now rewrite W, X.
Qed.
Lemma c_pop_oks : op_oks c_pop.
Proof.
  intros c w G S W. destruct c; try exact I. destruct w; try exact I. cbn [c_pop]. destruct l as [|x l]; [exact I|]. now apply (forallb_removelast (cwt c)).
Qed.
Lemma c_remove_oks k : op_oks (c_remove k).
Proof.
  intros c w G S W. destruct c; try exact I. destruct w; try exact I. cbn [c_remove]. destruct (assoc k es); [|exact I]. cbn [oks cwt] in *.
  apply andb_prop in W. destruct W as [N W]. apply andb_true_intro. split; [apply nodup_nodupb, nodup_filter, nodupb_nodup, N|].
  rewrite forallb_forall in *. intros e I. apply filter_In in I. apply W, I.
Qed.
Lemma last_in {A} (l : list A) d : l <> [] -> In (last l d) l.
Proof. induction l as [|x l IH]; [congruence|]. intros _. destruct l; [now left|]. right. now apply IH. Qed.
Definition epath (e : entry) : list N := match e with EUpdate p _ | EListPush p _ | EListPop p | EMapRemove p _ => p end.
Lemma c_handle_oks c e w : cgen c = true -> c_state c = true -> cwt c w = true -> seg32 (epath e) -> oks (fun w' => cwt c w' = true) (c_handle c e w).
Proof.
  intros G S W P. destruct e as [p bs|p bs|p|p k]; cbn [c_handle epath] in *.
  - destruct p as [|n p].
    + eapply oks_bind; [now apply c_deser_fst|]. intros [x r] X. exact X.
    + apply c_modify_oks; try assumption. apply c_replace_oks. unfold seg32 in P. rewrite Forall_forall in P. apply P, last_in. discriminate.
  - apply c_modify_oks; try assumption. apply c_push_oks.
  - apply c_modify_oks; try assumption. apply c_pop_oks.
  - apply c_modify_oks; try assumption. apply c_remove_oks.
Qed.

Lemma c_path_oks w : cwt (CVec (CInt U32)) w = true -> exists p, c_path w = Some p /\ seg32 p.
Proof.
  destruct w; try discriminate. intros H. cbn [cwt] in H. eexists. split; [reflexivity|]. unfold seg32. apply Forall_forall. intros n I.
  apply in_map_iff in I. destruct I as (x & E & I). rewrite forallb_forall in H. specialize (H _ I). destruct x; try discriminate. subst n.
  unfold in_range in H. cbn in H. change (2 ^ 32) with 4294967296. lia.
Qed.
Lemma c_entry_oks w : cwt cEntry w = true -> oks (fun e => seg32 (epath e)) (c_entry w).
Proof.
  destruct w; try discriminate. unfold cEntry. rewrite cwt_enum. cbn [assoc].
  destruct (tag =? 0) eqn:T0; [|destruct (tag =? 8) eqn:T8; [|destruct (tag =? 9) eqn:T9; [|destruct (tag =? 12) eqn:T12; [|discriminate]]]];
    (destruct fs as [|[t0 p] fs]; [discriminate|]); cbn [cwt_fields]; intros H; apply andb_prop in H; destruct H as [H H'];
    apply andb_prop in H; destruct H as [_ H]; destruct (c_path_oks p H) as (q & Q & Sq); cbn [c_entry];
    destruct fs as [|[t1 x] fs]; try discriminate; rewrite Q; try (rewrite T9; exact Sq);
    (destruct fs; [|apply andb_prop in H'; destruct H' as [_ H']; discriminate]); apply andb_prop in H'; destruct H' as [H' _]; apply andb_prop in H'; destruct H' as [_ X];
    destruct x; try discriminate; rewrite ?T0, ?T8, ?T12; exact Sq.
Qed.

(** The next entry of a stream, as StateReplayer.cs 10-12 reads it. *)
Definition c_next (bs : bytes) : res (entry * bytes) :=
  do (sub, rest) <- c_nested bs; do (x, _) <- c_deser cEntry sub; do e <- c_entry x; Ok (e, rest).
Lemma c_next_oks bs : oks (fun p => seg32 (epath (fst p)) /\ shorter bs (snd p)) (c_next bs).
Proof.
  unfold c_next. eapply oks_bind; [apply c_nested_oks|]. intros [sub rest] [_ Sh]. eapply oks_bind; [apply (c_deser_fst cEntry); reflexivity|].
  intros [x r] X. eapply oks_bind; [apply c_entry_oks, X|]. intros e E. now split.
Qed.
Lemma c_step_next c w bs : c_replay_step c w bs = try w (do (e, rest) <- c_next bs; do w' <- c_handle c e w; Ok (w', rest)) (fun '(w', rest) => (w', Ok rest)).
Proof.
  unfold c_replay_step, c_next. destruct (c_nested bs) as [[sub rest]| | |]; cbn [bind]; try reflexivity. destruct (c_deser cEntry sub) as [[x r]| | |]; cbn [bind]; try reflexivity.
  destruct (c_entry x); reflexivity.
Qed.

(** Entries that a prefix of the stream consists of. *)
Inductive c_decodes : bytes -> list entry -> bytes -> Prop :=
| cd_nil bs : c_decodes bs [] bs
| cd_cons bs e rest es tail : c_next bs = Ok (e, rest) -> c_decodes rest es tail -> c_decodes bs (e :: es) tail.

Lemma c_loop_oks c : cgen c = true -> c_state c = true -> forall fuel w bs, cwt c w = true -> (length bs <= fuel)%nat ->
  exists w' o es rest, loop fuel (c_replay_step c) w bs = (w', o) /\ cwt c w' = true /\ c_decodes bs es rest /\ c_handle_all c es w = Ok w' /\
    ((o = Ok [] /\ rest = []) \/
     (o = Panic /\ rest <> [] /\ (c_next rest = Panic \/ exists e rest', c_next rest = Ok (e, rest') /\ c_handle c e w' = Panic))).
Proof.
  intros G S. induction fuel as [|fuel IH]; intros w bs W L.
  - destruct bs; [|cbn in L; lia]. exists w, (Ok []), [], []. split; [reflexivity|]. split; [exact W|]. split; [constructor|]. split; [reflexivity|now left].
  - destruct bs as [|b bs']; [exists w, (Ok []), [], []; split; [reflexivity|]; split; [exact W|]; split; [constructor|]; split; [reflexivity|now left]|].
    set (bs := b :: bs') in *. change (loop (Datatypes.S fuel) (c_replay_step c) w bs) with
      (let '(s', r) := c_replay_step c w bs in try s' r (fun rest => loop fuel (c_replay_step c) s' rest)).
    rewrite c_step_next. pose proof (c_next_oks bs) as Nx. destruct (c_next bs) as [[e rest]| | |] eqn:En; cbn [oks] in Nx; try contradiction.
    2:{ cbn. exists w, Panic, [], bs. split; [reflexivity|]. split; [exact W|]. split; [constructor|]. split; [reflexivity|]. right. split; [reflexivity|]. split; [discriminate|now left]. }
    destruct Nx as [P Sh]. cbn [fst snd] in P, Sh. cbn [bind]. pose proof (c_handle_oks c e w G S W P) as H.
    destruct (c_handle c e w) as [w1| | |] eqn:Eh; cbn [oks] in H; try contradiction.
    + cbn [bind try]. unfold shorter in Sh. destruct (IH w1 rest H ltac:(lia)) as (w' & o & es & tail & E & W' & D & Ha & O).
      exists w', o, (e :: es), tail. split; [exact E|]. split; [exact W'|]. split; [econstructor; eassumption|]. split; [cbn [c_handle_all]; now rewrite Eh|exact O].
    + cbn [bind try]. exists w, Panic, [], bs. split; [reflexivity|]. split; [exact W|]. split; [constructor|]. split; [reflexivity|]. right. split; [reflexivity|].
      split; [discriminate|]. right. now exists e, rest.
Qed.

(** Every generated class. *)
Definition ccgen (t : ty) : Prop := forall c, ty_ok t = true -> cls t c = true -> cgen c = true.
Lemma cls_cgen_fields st fts : Forall (fun p => ccgen (snd p)) fts -> fields_ok st fts = true -> forall cfs, cls_fields fts cfs = true -> cgen_fields cfs = true.
Proof.
  induction 1 as [|[fi t] fts H _ IH]; intros O [|[tag [g c]] cfs] C; try discriminate C; [reflexivity|].
  unfold cgen_fields, fields_ok in *. cbn [cls_fields forallb snd] in *. bprop. rewrite (H c) by assumption. now apply IH.
Qed.
Lemma cls_variants_gen st vs : Forall (fun va : variant => Forall (fun p => ccgen (snd p)) (snd va)) vs -> forallb (fun va : variant => fields_ok st (snd va)) vs = true ->
  forall cvs, cls_variants vs cvs = true -> forallb (fun v : N * list (N * (bool * cty)) => cgen_fields (snd v)) cvs = true /\ map fst cvs = map (fun va => fst (fst va)) vs.
Proof.
  induction 1 as [|[[tag d] fts] vs H _ IH]; intros O [|[tag' cfs] cvs] C; try discriminate C; [now split|]. cbn [cls_variants forallb snd fst map] in *. bprop.
  destruct (IH ltac:(assumption) cvs ltac:(assumption)) as [A B]. apply N.eqb_eq in H0. subst tag'. rewrite B. split; [|reflexivity].
  rewrite A. rewrite (cls_cgen_fields st fts H) by assumption. reflexivity.
Qed.
Lemma cls_cgen t : ccgen t.
Proof.
  induction t as [k| | | |t IH|t IH|n t IH|ts IH|k t IHk IHt|t IH|si fs IH|st vs IH|t IH|k t IH] using ty_ind';
    intros c O C; try (destruct c; discriminate C || reflexivity).
  - destruct c; try discriminate C. exact (IH c O C).
  - destruct c; try discriminate C. exact (IH c O C).
  - destruct c; try discriminate C. cbn [ty_ok] in O. bprop. apply (IH c); assumption.
  - now apply IH.
  - destruct c; try discriminate C. rewrite ty_ok_struct in O. bprop. rewrite cls_struct in C. now apply (cls_cgen_fields (s_state si) fs).
  - destruct c; try discriminate C. rewrite cls_enum in C.
    destruct (cls_variants_gen st vs IH) with (cvs := vs0) as [A B]; [|exact C|].
    { apply forallb_forall. intros va I. apply (variant_fields_ok _ _ _ O I). }
    cbn [cgen]. apply andb_true_intro. split; [|exact A]. rewrite ty_ok_enum in O. bprop.
    match goal with H : existsb _ vs = true |- _ => apply existsb_exists in H; destruct H as (va & I & Z) end. apply existsb_exists. apply N.eqb_eq in Z.
    assert (I' : In 0 (map fst vs0)) by (rewrite B; apply in_map_iff; exists va; auto). apply in_map_iff in I'. destruct I' as (x & X & I'). exists x. rewrite X. auto.
  - destruct c; try discriminate C. cbn [ty_ok] in O. bprop. apply (IH c); assumption.
  - destruct c; try discriminate C. cbn [ty_ok] in O. bprop. apply (IH c); assumption.
Qed.
Lemma cls_state t : forall c, state_ty t = true -> cls t c = true -> prim_under t = false -> c_state c = true.
Proof.
  induction t; intros c S C P; try discriminate S; try (destruct c; discriminate C || reflexivity); try discriminate P.
  now apply IHt.
Qed.
