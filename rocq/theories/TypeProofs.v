(** Facts about types, typing, defaults and normal forms. *)
From Verif Require Import Base Varint WireFmt Utf8 Types Ser Spec ValInd VarintProofs WireProofs SerProofs.

Ltac bprop := repeat match goal with H : _ && _ = true |- _ => apply andb_true_iff in H; destruct H end.

Notation variant := ((N * bool) * list (finfo * ty))%type.

Fixpoint wt_fields (ts : list (finfo * ty)) (fs : list (finfo * val)) : bool :=
  match ts, fs with
  | [], [] => true
  | (fi, t) :: ts', (fj, x) :: fs' => finfo_eqb fi fj && wt t x && wt_fields ts' fs'
  | _, _ => false
  end.

Fixpoint wt_list (ts : list ty) (l : list val) : bool :=
  match ts, l with
  | [], [] => true
  | t :: ts', x :: l' => wt t x && wt_list ts' l'
  | _, _ => false
  end.

Lemma wt_struct_eq si ts c r fs : wt (TStruct si ts) (VStruct c r fs) =
  Bool.eqb (s_cache si) c &&
  Bool.eqb (s_state si) (match r with Some _ => true | None => false end) && wt_fields ts fs.
Proof.
  reflexivity.
Qed.

Lemma wt_enum_eq st vs tag c r fs : wt (TEnum st vs) (VEnum tag c r fs) =
  Bool.eqb st (match r with Some _ => true | None => false end) && rt_below r &&
  match find_variant vs tag with
  | Some ((_, c'), ts) => Bool.eqb c' c && wt_fields ts fs
  | None => false
  end.
Proof.
  cbn [wt]. f_equal. unfold find_variant. induction vs as [|[[tag' c'] ts] vs IH]; [reflexivity|].
  cbn [find fst]. destruct (tag' =? tag); [reflexivity|exact IH].
Qed.

Lemma wt_tup_eq ts l : wt (TTup ts) (VTup l) = wt_list ts l.
Proof.
  reflexivity.
Qed.

Lemma finfo_eqb_eq a b : finfo_eqb a b = true <-> a = b.
Proof.
  destruct a as [t1 s1 e1 h1], b as [t2 s2 e2 h2]. unfold finfo_eqb. cbn.
  rewrite !andb_true_iff, !eqb_true_iff, N.eqb_eq. split; [intros [[[-> ->] ->] ->]; reflexivity|].
  intros E. inversion E; auto.
Qed.

Lemma ikind_eqb_eq a b : ikind_eqb a b = true <-> a = b.
Proof. destruct a, b; cbn; split; congruence. Qed.

(** Field conditions of [ty_ok]. *)
Definition fields_ok (st : bool) (fs : list (finfo * ty)) : bool :=
  forallb (fun p : finfo * ty => let '(fi, t) := p in
      (f_tag fi <=? FIELD_NUMBER_MAX) && ty_ok t &&
      (negb (f_state fi) || (st && state_ty t))) fs.

Lemma ty_ok_struct si fs : ty_ok (TStruct si fs) =
  fields_ok (s_state si) fs && nodupb (map (fun p => f_tag (fst p)) fs).
Proof. reflexivity. Qed.

Lemma ty_ok_enum st vs : ty_ok (TEnum st vs) =
  forallb (fun va : variant =>
        (fst (fst va) <=? FIELD_NUMBER_MAX) &&
        fields_ok st (snd va) && nodupb (map (fun p => f_tag (fst p)) (snd va))) vs &&
      nodupb (map (fun va => fst (fst va)) vs) &&
      existsb (fun va => fst (fst va) =? 0) vs.
Proof. reflexivity. Qed.

Lemma find_variant_in vs tag va : find_variant vs tag = Some va -> In va vs /\ fst (fst va) = tag.
Proof. unfold find_variant. intros H. apply find_some in H. destruct H as [H1 H2]. split; [exact H1|lia]. Qed.

Lemma wt_vwty t v : wt t v = true -> vwty v = wty t.
Proof.
  revert v. induction t as [k| | | |t IH|t IH|n t IH|ts IH|k t IHk IHt|t IH|si fs IH|st vs IH|t IH|k t IH]
    using ty_ind'; intros v H; destruct v; try discriminate H; try reflexivity.
  cbn in *. now apply IH.
Qed.

Lemma fields_ser_ok st ts fs :
  Forall (fun p => forall v, ty_ok (snd p) = true -> wt (snd p) v = true -> writable v = true -> ser_ok v) ts ->
  fields_ok st ts = true -> wt_fields ts fs = true ->
  forallb (fun p : finfo * val => let '(_, x) := p in writable x) fs = true ->
  forall s, In s (map fslot fs) -> fn_ok s /\ ser_ok (snd s).
Proof.
  revert fs. induction ts as [|[fi t] ts IH]; intros [|[fj x] fs] HF Hok Hw Hr s Hi;
    try discriminate Hw; [destruct Hi|].
  unfold fields_ok in Hok. cbn [forallb] in Hok, Hr. cbn [wt_fields] in Hw. bprop.
  inversion HF as [|? ? HF1 HF2]; subst. cbn [snd] in HF1.
  destruct Hi as [<-|Hi].
  - match goal with H : finfo_eqb _ _ = true |- _ => apply finfo_eqb_eq in H; subst fj end.
    cbn. split; [lia|]. apply HF1; assumption.
  - apply (IH fs); assumption.
Qed.

Lemma wt_ser_ok t : forall v, ty_ok t = true -> wt t v = true -> writable v = true -> ser_ok v.
Proof.
  induction t as [k| | | |t IH|t IH|n t IH|ts IH|k t IHk IHt|t IH|si fs IH|st vs IH|t IH|k t IH]
    using ty_ind'; intros v Hok Hw Hr.
  - destruct v; try discriminate Hw. cbn in Hw. apply andb_true_iff in Hw. destruct Hw as [E R].
    apply ikind_eqb_eq in E. subst. now constructor.
  - destruct v; try discriminate Hw. constructor.
  - destruct v; try discriminate Hw. constructor.
  - destruct v; try discriminate Hw. constructor.
  - destruct v as [| | | |o| | | | | | | | |]; try discriminate Hw. apply so_comp; [reflexivity|exact I|].
    destruct o as [x|]; [|intros s []]. intros s [<-|[]]. split; [exact I|]. now apply IH.
  - destruct v as [| | | | |l| | | | | | | |]; try discriminate Hw. apply so_comp; [reflexivity|exact I|].
    intros s Hi. cbn [slots] in Hi. apply in_map_iff in Hi. destruct Hi as [x [<- Hi]]. split; [exact I|].
    cbn in Hw, Hr. rewrite forallb_forall in Hw, Hr. apply IH; auto.
  - destruct v as [| | | | | |l| | | | | | |]; try discriminate Hw. apply so_comp; [reflexivity|exact I|].
    intros s Hi. cbn [slots] in Hi. apply in_map_iff in Hi. destruct Hi as [x [<- Hi]]. split; [exact I|].
    cbn in Hw, Hr, Hok. rewrite andb_true_iff in Hw.
    destruct Hw as [_ Hw]. rewrite forallb_forall in Hw, Hr. apply IH; auto. (bprop; assumption).
  - destruct v as [| | | | | | |l| | | | | |]; try discriminate Hw. rewrite wt_tup_eq in Hw.
    apply so_comp; [reflexivity|exact I|].
    assert (Hok' : forallb ty_ok ts = true) by (cbn in Hok; bprop; assumption). clear Hok. rename Hok' into Hok.
    cbn [slots]. cbn in Hr. revert l Hw Hr. induction ts as [|t ts IHts]; intros [|x l] Hw Hr; try discriminate Hw.
    + intros s [].
    + cbn [wt_list forallb] in Hw, Hr, Hok. inversion IH as [|? ? IH1 IH2]; subst.
      intros s [<-|Hi]; [split; [exact I|]; apply IH1; (bprop; assumption)|]. apply (IHts IH2) with (l := l); (bprop; assumption).
  - destruct v as [| | | | | | | |l| | | | |]; try discriminate Hw. cbn in Hok, Hw, Hr.
    apply andb_true_iff in Hw. destruct Hw as [Hw _].
    rewrite forallb_forall in Hw, Hr.
    apply so_comp; [reflexivity|exact I|].
    intros s Hi. cbn [slots] in Hi. apply in_flat_map in Hi. destruct Hi as [[kk x] [Hi Hs]].
    specialize (Hw _ Hi). specialize (Hr _ Hi). cbn in Hw, Hr.
    destruct Hs as [<-|[<-|[]]]; (split; [exact I|]); cbn; [apply IHk|apply IHt]; (bprop; assumption).
  - destruct v; try discriminate Hw. apply so_box. now apply IH.
  - destruct v as [| | | | | | | | | |c r l| | |]; try discriminate Hw.
    rewrite wt_struct_eq in Hw. rewrite ty_ok_struct in Hok.
    apply so_comp; [reflexivity|exact I|]. cbn [slots].
    apply (fields_ser_ok (s_state si) fs l IH); (bprop; assumption).
  - destruct v as [| | | | | | | | | | |tag c r l| |]; try discriminate Hw.
    rewrite wt_enum_eq in Hw. rewrite ty_ok_enum in Hok. bprop. destruct (find_variant vs tag) as [[[tag' c'] ts]|] eqn:F; [|discriminate].
    apply find_variant_in in F. destruct F as [F E]. cbn in E. subst tag'.
    match goal with H : forallb _ vs = true |- _ => rewrite forallb_forall in H; specialize (H _ F); cbn [fst snd] in H end.
    bprop.
    apply so_comp; [reflexivity| |].
    + unfold FIELD_NUMBER_MAX in *. lia.
    + cbn [slots]. rewrite Forall_forall in IH. specialize (IH _ F).
      apply (fields_ser_ok st ts l IH); (bprop; assumption).
  - destruct v as [| | | | | | | | | | | |r l|]; try discriminate Hw. apply so_comp; [reflexivity|exact I|].
    intros s Hi. cbn [slots] in Hi. apply in_map_iff in Hi. destruct Hi as [x [<- Hi]]. split; [exact I|].
    cbn in Hw, Hr, Hok. rewrite forallb_forall in Hw, Hr. apply IH; auto. (bprop; assumption).
  - destruct v as [| | | | | | | | | | | | |r l]; try discriminate Hw. apply so_comp; [reflexivity|exact I|].
    intros s Hi. cbn [slots] in Hi. apply in_map_iff in Hi. destruct Hi as [[kk x] [<- Hi]].
    cbn in Hw, Hr, Hok. rewrite andb_true_iff in Hw. destruct Hw as [Hw _].
    rewrite forallb_forall in Hw, Hr. specialize (Hw _ Hi). specialize (Hr _ Hi). cbn in Hw, Hr.
    cbn. split; [bprop; lia|]. apply IH; (bprop; assumption).
Qed.

(** * Statements used by PropSer.v *)

(** [cached_size] of a node whose caches are right, as an equation on stores: nothing is written. *)
Lemma compute_fix_ok v : ser_ok v -> lenN (enc v) < 2 ^ 32 -> forall m a h, kids_ok a v h ->
  exists h', compute m a v h = Ok (lenN (enc v), h') /\ forall b, h' b = h b.
Proof.
  intros O L m a h K. destruct (compute_spec v O L m a h) as [h' [E [_ [_ S]]]]. exists h'. split; [exact E|auto].
Qed.

Lemma announced_sizes m t v h :
  ty_ok t = true -> wt t v = true -> writable v = true -> lenN (enc v) < 2 ^ 32 ->
  exists h1 h2 h3 bs,
    compute m [] v h = Ok (lenN bs, h1) /\ cache_size m [] v h = Ok (lenN bs, h2) /\
    steit_serialize m v h = Ok (bs, h3) /\ bs = enc v /\
    (forall b y, at_addr [] v b y -> has_cache y = true ->
       h2 b = lenN (enc y) /\ cached_size m b y h2 = Ok (lenN (enc y), h2)).
Proof.
  intros Ht Hw Hr Hl. pose proof (wt_ser_ok t v Ht Hw Hr) as O.
  destruct (compute_spec v O Hl m [] h) as [h1 [E1 _]].
  destruct (cache_size_spec v O Hl m [] h) as [h2 [E2 [A2 _]]].
  destruct (steit_serialize_spec v O Hl m h) as [h3 [E3 _]].
  exists h1, h2, h3, (enc v). repeat (split; [assumption || reflexivity|]).
  intros b y H C. pose proof (A2 b y H C) as E. split; [exact E|].
  unfold cached_size. rewrite C. now rewrite E.
Qed.

Lemma stale_caches m t v h1 h2 :
  ty_ok t = true -> wt t v = true -> writable v = true -> lenN (enc v) < 2 ^ 32 ->
  exists bs h1' h2' h3,
    steit_serialize m v h1 = Ok (bs, h1') /\ steit_serialize m v h2 = Ok (bs, h2') /\
    steit_serialize m v h1' = Ok (bs, h3) /\
    (forall b, h3 b = h1' b) /\
    (forall b, (forall y, at_addr [] v b y -> has_cache y = true -> False) -> h1' b = h1 b).
Proof.
  intros Ht Hw Hr Hl. pose proof (wt_ser_ok t v Ht Hw Hr) as O.
  destruct (steit_serialize_spec v O Hl m h1) as [h1' [E1 [A1 F1]]].
  destruct (steit_serialize_spec v O Hl m h2) as [h2' [E2 _]].
  destruct (steit_serialize_spec v O Hl m h1') as [h3 [E3 [A3 F3]]].
  exists (enc v), h1', h2', h3. repeat (split; [assumption|]). split; [|exact F1].
  intros b. 
  destruct (compute_fix_ok v O Hl m [] h1' (all_ok_kids _ _ _ A1)) as [h4 [E4 S4]].
  unfold steit_serialize, cache_size in E3. rewrite E4 in E3. cbn [bind] in E3.
  set (h5 := if has_cache v then upd h4 [] (lenN (enc v)) else h4) in E3.
  assert (S5 : forall b, h5 b = h1' b).
  { intros c. unfold h5. destruct (has_cache v) eqn:C; [|apply S4].
    destruct (addr_eqb c []) eqn:E.
    - apply addr_eqb_eq in E. subst c. rewrite upd_same. symmetry. now apply all_ok_own.
    - rewrite upd_other; [apply S4|]. intros ->. discriminate E. }
  destruct (ser_cached_spec v O Hl m [] h5) as [h6 [E6 S6]].
  { apply all_ok_kids. now apply (all_ok_ext _ _ h1'). }
  rewrite E6 in E3. inversion E3; subst h3. now rewrite S6, S5.
Qed.

Lemma large_map_keys m t v h :
  ty_ok t = true -> wt t v = true -> lenN (enc v) < 2 ^ 32 ->
  (writable v = true -> to_bytes m v h = Ok (enc v)) /\
  (writable v = false -> to_bytes m v h = Panic).
Proof.
  intros Ht Hw Hl. split; intros Hr.
  - apply to_bytes_spec; [now apply (wt_ser_ok t)|exact Hl].
  - apply to_bytes_bad. now apply unwritable_bad.
Qed.

Lemma map_large_keys m k t r es h :
  ty_ok (TMap k t) = true -> wt (TMap k t) (VMap r es) = true -> lenN (enc (VMap r es)) < 2 ^ 32 ->
  (forall e, In e es -> writable (snd e) = true) ->
  ((exists bs, to_bytes m (VMap r es) h = Ok bs) <-> (forall e, In e es -> fst e <= 2 ^ 29 - 1)) /\
  ((exists e, In e es /\ 2 ^ 29 - 1 < fst e) -> to_bytes m (VMap r es) h = Panic).
Proof.
  intros Ht Hw Hl Hi. destruct (large_map_keys m _ _ h Ht Hw Hl) as [H1 H2].
  assert (EM : FIELD_NUMBER_MAX = 2 ^ 29 - 1) by reflexivity.
  assert (K : writable (VMap r es) = true <-> forall e, In e es -> fst e <= 2 ^ 29 - 1).
  { cbn [writable]. rewrite forallb_forall, <- EM. split.
    - intros H e He. specialize (H e He). destruct e as [key x]. bprop. cbn. lia.
    - intros H e He. specialize (H e He). specialize (Hi e He). destruct e as [key x]. cbn in *.
      rewrite Hi, andb_true_r. lia. }
  split; [split|].
  - intros [bs E]. apply K. destruct (writable (VMap r es)); [reflexivity|]. rewrite H2 in E by reflexivity. discriminate.
  - intros H. apply K in H. rewrite H1 by exact H. eauto.
  - intros [e [He Le]]. apply H2. destruct (writable (VMap r es)); [|reflexivity].
    pose proof (proj1 K eq_refl e He). lia.
Qed.

Lemma small_keys_fit k n : k <> K32 -> n <= mkey_max k -> n <= 2 ^ 29 - 1.
Proof. change (2 ^ 29 - 1) with 536870911. destruct k; cbn; intros; [lia|lia|congruence]. Qed.
