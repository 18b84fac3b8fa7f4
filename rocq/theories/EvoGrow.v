(** Proofs for C56: a replica of a later version follows every log. *)
From Verif Require Import Base Varint WireFmt Utf8 Types Ser Spec De Log State StateSpec Coll ValInd VarintProofs WireProofs SerProofs TypeProofs EqProofs DeProofs RoundTrip MergeProofs NormProofs LogProofs TreeProofs CohProofs HandleProofs OpProofs ExecProofs ReplayProofs FrameProofs KeepProofs SimProofs Evo EvoProofs EvoBack EvoSim.

Definition gr_fields (fts fts' : list (finfo * ty)) : bool :=
  forallb (fun p : finfo * ty => let '(fi, t) := p in
    match find_field (f_tag fi) fts' with Some (fi', t') => implb (f_state fi) (f_state fi') && grown t t' | None => false end) fts.
Fixpoint gr_list (ts ts' : list ty) : bool :=
  match ts, ts' with [], [] => true | t :: ts, t' :: ts' => grown t t' && gr_list ts ts' | _, _ => false end.
Lemma gr_struct si fts si' fts' : grown (TStruct si fts) (TStruct si' fts') = gr_fields fts fts'. Proof. reflexivity. Qed.
Lemma gr_enum st vs st' vs' : grown (TEnum st vs) (TEnum st' vs') =
  forallb (fun va : (N * bool) * list (finfo * ty) => match find_variant vs' (fst (fst va)) with Some va' => gr_fields (snd va) (snd va') | None => false end) vs.
Proof. reflexivity. Qed.
Lemma gr_tup ts ts' : grown (TTup ts) (TTup ts') = gr_list ts ts'. Proof. reflexivity. Qed.
Lemma gr_in fts fts' fi t : gr_fields fts fts' = true -> In (fi, t) fts ->
  exists fj t', find_field (f_tag fi) fts' = Some (fj, t') /\ (f_state fi = true -> f_state fj = true) /\ grown t t' = true.
Proof.
  intros E I. unfold gr_fields in E. rewrite forallb_forall in E. specialize (E _ I). cbn in E. destruct (find_field (f_tag fi) fts') as [[fj t']|]; [|discriminate E].
  bprop. exists fj, t'. split; [reflexivity|]. split; [|assumption]. intros S. match goal with X : implb _ _ = true |- _ => rewrite S in X; exact X end.
Qed.
Lemma grown_keeps t : forall t', grown t t' = true -> keeps t t' = true.
Proof.
  assert (Ff : forall fts fts', Forall (fun p => forall t', grown (snd p) t' = true -> keeps (snd p) t' = true) fts -> gr_fields fts fts' = true -> kp_fields fts fts' = true).
  { intros fts fts' H K. unfold kp_fields. apply forallb_forall. intros [fi u] I. destruct (gr_in fts fts' fi u K I) as (fj & t' & F & _ & Kt). rewrite F.
    rewrite Forall_forall in H. exact (H _ I t' Kt). }
  induction t as [k| | | |t IH|t IH|n t IH|ts IH|k t IHk IHt|t IH|si fs IH|st vs IH|t IH|k t IH] using ty_ind'; intros t' E;
    destruct t' as [k'| | | |t'|t'|n' t'|ts'|kt' vt'|t'|si' fts'|st' vs'|t'|k' t']; try discriminate E; try exact E; try exact (IH t' E).
  - cbn [keeps grown] in *. bprop. rewrite (IH t') by assumption. now rewrite andb_true_r.
  - rewrite gr_tup in E. rewrite kp_tup. revert ts' E. induction IH as [|t ts H _ IHt]; intros [|t' ts'] E; try discriminate E; [reflexivity|]. cbn in *. bprop. rewrite H, IHt by assumption. reflexivity.
  - cbn [keeps grown] in *. bprop. rewrite (IHt vt') by assumption. rewrite andb_true_r. assumption.
  - rewrite gr_struct in E. rewrite kp_struct. now apply Ff.
  - rewrite gr_enum in E. rewrite kp_enum. rewrite forallb_forall in *. intros va I. specialize (E _ I). rewrite Forall_forall in IH.
    destruct (find_variant vs' (fst (fst va))) as [va'|]; [|discriminate E]. apply Ff; [exact (IH _ I)|exact E].
  - cbn [keeps grown] in *. bprop. now apply IH.
Qed.

(** What survives a round trip is taken by a later version. *)
Definition gtakes (m : mode) (t : ty) : Prop := forall t' v, grown t t' = true -> wt t v = true -> writable v = true -> ints_safe v = true -> keys_in t v = true -> takes m t' v = true.
Lemma grown_takes_fields m fts fts' : Forall (fun p => gtakes m (snd p)) fts -> gr_fields fts fts' = true -> forall fs, wt_fields fts fs = true ->
  forallb (fun p : finfo * val => let '(_, x) := p in writable x) fs = true -> forallb (fun p : finfo * val => let '(_, x) := p in ints_safe x) fs = true -> keys_fields fts fs = true ->
  takes_fields m fts' fs = true.
Proof.
  induction 1 as [|[fi t] fts H _ IH]; intros E [|[fj x] fs] W Wr Sf K; try discriminate W; [reflexivity|].
  assert (E2 : gr_fields fts fts' = true) by (unfold gr_fields in *; cbn [forallb] in E; now bprop).
  destruct (gr_in _ _ fi t E (or_introl eq_refl)) as (fk & t' & F & _ & G). cbn [wt_fields forallb keys_fields] in *. bprop.
  match goal with X : finfo_eqb _ _ = true |- _ => apply finfo_eqb_eq in X; subst fj end.
  unfold takes_fields. cbn [forallb]. fold (takes_fields m fts' fs). rewrite IH by assumption. rewrite andb_true_r, F.
  rewrite (wt_vwty t x) by assumption. rewrite (keeps_wty t t' (grown_keeps _ _ G)), wtype_eqb_refl. now apply H.
Qed.
Lemma grown_takes m t : gtakes m t.
Proof.
  induction t as [k| | | |t IH|t IH|n t IH|ts IH|k t IHk IHt|t IH|si fts IH|st vs IH|t IH|k t IH] using ty_ind';
    intros t' v E W Wr Sf K; destruct t' as [k'| | | |t'|t'|n' t'|ts'|kt' vt'|t'|si' fts'|st' vs'|t'|k' t']; try discriminate E;
    destruct v as [| | | |o|l|l|l|l|v|cc r0 fs|tag cc r0 fs|r0 l|r0 es]; try discriminate W; try reflexivity; try exact Sf.
  - destruct o as [x|]; [|reflexivity]. cbn [wt writable ints_safe keys_in takes grown] in *. now apply IH.
  - cbn [wt writable ints_safe keys_in takes grown] in *. rewrite forallb_forall in *. intros y I. apply IH; auto.
  - cbn [wt writable ints_safe keys_in takes grown] in *. bprop. match goal with X : forallb (wt t) l = true |- _ => rewrite forallb_forall in X; rename X into Wl end. rewrite forallb_forall in *. intros y I. apply IH; auto.
  - rewrite wt_tup_eq in W. rewrite gr_tup in E. rewrite keys_tup in K. rewrite takes_tup. cbn [writable ints_safe] in *.
    revert ts' l W E Wr Sf K. induction IH as [|t ts H _ IHt]; intros [|t' ts'] [|x l] W E Wr Sf K; try discriminate W; try discriminate E; [reflexivity|].
    cbn [wt_list takes_list forallb gr_list keys_list] in *. bprop. rewrite H, IHt by assumption. reflexivity.
  - cbn [wt writable ints_safe keys_in takes] in *. change (plain_key k kt' && grown t vt' = true) in E. bprop.
    match goal with X : forallb (fun e => wt _ _ && _) l = true |- _ => rewrite forallb_forall in X; rename X into Wl end.
    destruct (plain_key_eq k kt' ltac:(assumption)) as [-> _]. match goal with X : plain_key k k = true |- _ => rename X into Pk end.
    rewrite forallb_forall in *. intros [a b] I. specialize (Wl _ I). specialize (Wr _ I). specialize (Sf _ I). specialize (K _ I). cbn [fst snd] in *. bprop.
    rewrite (IHt vt') by assumption. rewrite andb_true_r. apply IHk; try assumption. destruct k; try discriminate Pk; exact Pk.
  - cbn [wt writable ints_safe keys_in takes grown] in *. now apply IH.
  - rewrite wt_struct_eq in W. rewrite gr_struct in E. rewrite keys_struct in K. rewrite takes_struct. cbn [writable ints_safe] in *. bprop. now apply (grown_takes_fields m fts).
  - destruct (wt_enum_inv _ _ _ _ _ _ W) as (c1 & fts & F & -> & Wf & Hr & _). rewrite gr_enum in E. rewrite takes_enum. rewrite keys_enum, F in K. cbn [writable ints_safe snd] in *.
    destruct (find_variant_in _ _ _ F) as [Iv _]. rewrite forallb_forall in E. specialize (E _ Iv). cbn [fst snd] in E. destruct (find_variant vs' tag) as [va'|]; [|discriminate E].
    rewrite Forall_forall in IH. now apply (grown_takes_fields m fts _ (IH _ Iv)).
  - cbn [wt writable ints_safe keys_in takes grown] in *. rewrite forallb_forall in *. intros y I. apply IH; auto.
  - cbn [wt writable ints_safe keys_in takes grown] in *. bprop. match goal with X : forallb (fun e => _ && wt _ _) es = true |- _ => rewrite forallb_forall in X; rename X into Wl end.
    rewrite forallb_forall in *. intros [a b] I. specialize (Wl _ I). specialize (Wr _ I). specialize (Sf _ I). specialize (K _ I). cbn [fst snd] in *. bprop.
    rewrite (IH t') by assumption. rewrite andb_true_r. apply andb_true_iff. split; [lia|]. assumption.
Qed.
Lemma grown_arg m t t' x : grown t t' = true -> arg_ok t x -> takes m t' x = true.
Proof. intros G (W & L & _). apply lossless_and in L. destruct L as (A & B & C). now apply (grown_takes m t). Qed.

(** Every entry a state can log is followed by a later version. *)
Lemma grown_follows m t e : typed t e -> forall t', grown t t' = true -> follows m t t' e.
Proof.
  induction 1 as [t x A|t x A|t|kk t k|t e T IH|si fts fn fi t e F S T IH|st vs tag va fn fi t e V F S T IH|t i e T IH|kk t k e T IH]; intros t' G.
  - apply FwUpdate; [exact A|now apply keeps_evolves, grown_keeps|now apply (grown_arg m t)].
  - destruct t'; try discriminate G. cbn [grown] in G. apply FwPush; [exact A|now apply keeps_evolves, grown_keeps|now apply (grown_arg m t)].
  - destruct t'; try discriminate G. constructor.
  - destruct t'; try discriminate G. constructor.
  - destruct t'; try discriminate G. constructor. now apply IH.
  - destruct t'; try discriminate G. rewrite gr_struct in G. destruct (gr_in _ _ _ _ G (find_field_in _ _ _ F)) as (fj & t' & F' & S' & G').
    rewrite (find_field_tag _ _ _ _ F) in F'. apply (FwField m _ _ _ _ fn fi fj t t'); auto. now apply keeps_wty, grown_keeps.
  - destruct t'; try discriminate G. rewrite gr_enum in G. destruct (find_variant_in _ _ _ V) as [Iv Tg]. rewrite forallb_forall in G. specialize (G _ Iv). rewrite Tg in G.
    destruct (find_variant vs0 tag) as [va'|] eqn:V'; [|discriminate G]. destruct (gr_in _ _ _ _ G (find_field_in _ _ _ F)) as (fj & t' & F' & S' & G').
    rewrite (find_field_tag _ _ _ _ F) in F'. apply (FwVar m _ _ _ _ tag va va' fn fi fj t t'); auto. now apply keeps_wty, grown_keeps.
  - destruct t'; try discriminate G. apply FwItem. now apply IH.
  - destruct t'; try discriminate G. cbn [grown] in G. bprop. apply FwKey. now apply IH.
Qed.

(** ** Encodings are bytes *)
Lemma bytes_flat_map {A} (f : A -> bytes) l : (forall x, In x l -> bytes_ok (f x)) -> bytes_ok (flat_map f l).
Proof. intros H. induction l as [|x l IH]; [constructor|]. cbn [flat_map]. apply bytes_ok_app. split; [apply H; now left|apply IH; intros y I; apply H; now right]. Qed.
Lemma bytes_delimited v b : bytes_ok b -> bytes_ok (delimited v b).
Proof. intros H. unfold delimited. destruct (vwty v); [exact H|]. apply bytes_ok_app. split; [apply leb128_ok|exact H]. Qed.
Lemma bytes_tagged n v b : bytes_ok b -> bytes_ok (enc_tagged n v b).
Proof. intros H. unfold enc_tagged. apply bytes_ok_app. split; [apply leb128_ok|now apply bytes_delimited]. Qed.
Lemma enc_fields_ok fts fs : Forall (fun p => forall v, wt (snd p) v = true -> bytes_ok (enc v)) fts -> wt_fields fts fs = true -> bytes_ok (enc_fields fs).
Proof.
  intros H W. apply bytes_flat_map. intros [fi x] I. destruct (in_wt fts fs fi x W I) as (t & It & Wx). rewrite Forall_forall in H. specialize (H _ It x Wx).
  destruct (left_out x (enc x)); [constructor|now apply bytes_tagged].
Qed.
Lemma enc_ok t : forall v, wt t v = true -> bytes_ok (enc v).
Proof.
  induction t as [k| | | |t IH|t IH|n t IH|ts IH|k t IHk IHt|t IH|si fts IH|st vs IH|t IH|k t IH] using ty_ind';
    intros v W; destruct v as [| | | |o|l|l|l|l|v|cc r0 fs|tag cc r0 fs|r0 l|r0 es]; try discriminate W.
  - apply leb128_ok.
  - cbn. destruct b; repeat constructor.
  - cbn in *. bprop. now apply bytes_okb.
  - cbn in *. now apply bytes_okb.
  - destruct o as [x|]; [|constructor]. cbn in *. apply bytes_delimited. now apply IH.
  - cbn [wt enc] in *. rewrite forallb_forall in W. apply bytes_flat_map. intros x I. apply bytes_delimited. now apply IH, W.
  - cbn [wt enc] in *. bprop. match goal with X : forallb (wt t) l = true |- _ => rewrite forallb_forall in X; rename X into Wl end. apply bytes_flat_map. intros x I. apply bytes_delimited. now apply IH, Wl.
  - rewrite wt_tup_eq in W. cbn [enc]. revert l W. induction IH as [|t ts H _ IHt]; intros [|x l] W; try discriminate W; [constructor|]. cbn [wt_list flat_map] in *. bprop.
    apply bytes_ok_app. split; [apply bytes_delimited; now apply H|now apply IHt].
  - cbn [wt enc] in *. bprop. match goal with X : forallb (fun e => wt _ _ && _) l = true |- _ => rewrite forallb_forall in X; rename X into Wl end.
    apply bytes_flat_map. intros [a b] I. specialize (Wl _ I). cbn [fst snd] in Wl. bprop. apply bytes_ok_app. split; apply bytes_delimited; [now apply IHk|now apply IHt].
  - cbn in *. now apply IH.
  - rewrite wt_struct_eq in W. bprop. rewrite enc_struct. now apply (enc_fields_ok fts).
  - destruct (wt_enum_inv _ _ _ _ _ _ W) as (c1 & fts & F & -> & Wf & Hr & _). rewrite enc_enum. apply bytes_ok_app. split; [apply leb128_ok|]. destruct (find_variant_in _ _ _ F) as [Iv _].
    rewrite Forall_forall in IH. now apply (enc_fields_ok fts _ (IH _ Iv)).
  - cbn [wt enc] in *. rewrite forallb_forall in W. apply bytes_flat_map. intros x I. apply bytes_delimited. now apply IH, W.
  - cbn [wt enc] in *. bprop. match goal with X : forallb (fun e => _ && wt _ _) es = true |- _ => rewrite forallb_forall in X; rename X into Wl end.
    apply bytes_flat_map. intros [a b] I. specialize (Wl _ I). cbn [fst snd] in Wl. bprop. apply bytes_tagged. now apply IH.
Qed.
