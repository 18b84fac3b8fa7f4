(** Values up to runtimes. *)
From Verif Require Import Base Varint WireFmt Utf8 Types Ser Spec ValInd SerProofs TypeProofs EqProofs DeProofs RoundTrip.

Lemma norm_items_ext r i : forall l l', length l = length l' ->
  (forall j x y, nth_error l j = Some x -> nth_error l' j = Some y -> forall s, norm s x = norm s y) ->
  norm_items r i l = norm_items r i l'.
Proof.
  intros l. revert i. induction l as [|x l IH]; intros i [|y l'] L H; try discriminate L; [reflexivity|].
  cbn [norm_items]. f_equal.
  - now apply (H O).
  - apply IH; [now inversion L|]. intros j. apply (H (S j)).
Qed.

Lemma norm_items_nth r : forall l i j y, nth_error (norm_items r i l) j = Some y ->
  exists x, nth_error l j = Some x /\ y = norm (nested r (i + N.of_nat j)) x.
Proof.
  induction l as [|x l IH]; intros i j y H; [destruct j; discriminate H|].
  destruct j as [|j]; cbn in H.
  - inversion H; subst. exists x. split; [reflexivity|]. do 2 f_equal. lia.
  - apply IH in H. destruct H as (x' & H & ->). exists x'. split; [exact H|]. do 2 f_equal. lia.
Qed.

Lemma norm_items_norm r s : forall l, Forall (fun x => forall r s, norm r (norm s x) = norm r x) l ->
  forall i k, norm_items r i (norm_items s k l) = norm_items r i l.
Proof.
  induction 1 as [|x l H _ IH]; intros i k; [reflexivity|]. cbn [norm_items]. now rewrite H, IH.
Qed.

Lemma norm_norm v : forall r s, norm r (norm s v) = norm r v.
Proof.
  induction v as [v L|v IH|v C IH] using val_slots_ind; intros r s.
  - destruct v; try discriminate L; reflexivity.
  - cbn. now rewrite IH.
  - destruct v as [| | | |[x|]|l|l|l|l| |c ra fs|tag c ra fs|ra l|ra es]; try discriminate C; clear C; cbn [slots] in IH.
    + cbn. inversion IH; subst. cbn in *. congruence.
    + reflexivity.
    + apply (slot_items (fun x => forall r s, norm r (norm s x) = norm r x)) in IH.
      cbn [norm]. f_equal. rewrite map_map. apply map_ext_Forall. eapply Forall_impl; [|exact IH]. auto.
    + apply (slot_items (fun x => forall r s, norm r (norm s x) = norm r x)) in IH.
      cbn [norm]. f_equal. rewrite map_map. apply map_ext_Forall. eapply Forall_impl; [|exact IH]. auto.
    + apply (slot_items (fun x => forall r s, norm r (norm s x) = norm r x)) in IH.
      cbn [norm]. f_equal. rewrite map_map. apply map_ext_Forall. eapply Forall_impl; [|exact IH]. auto.
    + cbn [norm]. f_equal. induction l as [|[k x] l IHl]; [reflexivity|]. cbn [flat_map hslots app] in IH.
      inversion IH as [|? ? K1 IH1]; subst. inversion IH1 as [|? ? X1 IH2]; subst. cbn in K1, X1.
      cbn [map]. rewrite IHl by exact IH2. do 2 f_equal; auto.
    + cbn [norm]. f_equal; [now destruct ra|]. rewrite map_map.
      induction fs as [|[fi x] fs IHf]; [reflexivity|]. cbn [map] in *. inversion IH as [|? ? X1 IH2]; subst. cbn in X1.
      rewrite IHf by exact IH2. f_equal. now rewrite X1.
    + cbn [norm]. f_equal; [now destruct ra|]. rewrite map_map.
      induction fs as [|[fi x] fs IHf]; [reflexivity|]. cbn [map] in *. inversion IH as [|? ? X1 IH2]; subst. cbn in X1.
      rewrite IHf by exact IH2. f_equal. now rewrite X1.
    + apply (slot_items (fun x => forall r s, norm r (norm s x) = norm r x)) in IH.
      rewrite !norm_list. f_equal. now apply norm_items_norm.
    + cbn [norm]. f_equal. rewrite map_map.
      induction es as [|[k x] l IHl]; [reflexivity|]. cbn [map] in *.
      inversion IH as [|? ? X1 IH2]; subst. cbn in X1. rewrite IHl by exact IH2. f_equal. now rewrite X1.
Qed.

Lemma vwty_norm v r : vwty (norm r v) = vwty v.
Proof. revert r. induction v; intros; try reflexivity. cbn. auto. Qed.

Lemma left_out_norm v r b : left_out (norm r v) b = left_out v b.
Proof. destruct v; reflexivity. Qed.

Lemma flat_items (f : val -> bytes) (g : rt -> val -> val) l : Forall (fun x => forall r, f (g r x) = f x) l ->
  forall r, flat_map f (map (g r) l) = flat_map f l.
Proof. induction 1 as [|x l H _ IH]; intros r; [reflexivity|]. cbn. now rewrite H, IH. Qed.

Lemma enc_norm v : forall r, enc (norm r v) = enc v.
Proof.
  induction v as [v L|v IH|v C IH] using val_slots_ind; intros r.
  - destruct v; try discriminate L; reflexivity.
  - cbn. apply IH.
  - assert (D : forall x, (forall r, enc (norm r x) = enc x) -> forall r, delimited (norm r x) (enc (norm r x)) = delimited x (enc x)).
    { intros x H s. unfold delimited. now rewrite H, vwty_norm. }
    assert (FF : forall r fs, Forall (fun s : slot => forall r, enc (norm r (snd s)) = enc (snd s)) (map fslot fs) ->
      enc_fields (map (fun p : finfo * val => let '(fi, x) := p in (fi, norm (field_rt r fi) x)) fs) = enc_fields fs).
    { intros s. induction fs as [|[fi x] fs IHf]; intros H; [reflexivity|]. cbn [map] in *. inversion H as [|? ? X1 IH2]; subst. cbn in X1.
      rewrite !enc_fields_cons. rewrite IHf by exact IH2. cbn [fst snd]. rewrite X1, left_out_norm.
      unfold enc_tagged. now rewrite vwty_norm, <- (X1 (field_rt s fi)), D, (X1 (field_rt s fi)). }
    destruct v as [| | | |[x|]|l|l|l|l| |c ra fs|tag c ra fs|ra l|ra es]; try discriminate C; clear C; cbn [slots] in IH.
    + cbn. inversion IH; subst. now apply D.
    + reflexivity.
    + apply (slot_items (fun x => forall r, enc (norm r x) = enc x)) in IH. cbn [norm enc].
      apply (flat_items (fun x => delimited x (enc x))). eapply Forall_impl; [|exact IH]. auto.
    + apply (slot_items (fun x => forall r, enc (norm r x) = enc x)) in IH. cbn [norm enc].
      apply (flat_items (fun x => delimited x (enc x))). eapply Forall_impl; [|exact IH]. auto.
    + apply (slot_items (fun x => forall r, enc (norm r x) = enc x)) in IH. cbn [norm enc].
      apply (flat_items (fun x => delimited x (enc x))). eapply Forall_impl; [|exact IH]. auto.
    + cbn [norm enc]. induction l as [|[k x] l IHl]; [reflexivity|]. cbn [flat_map hslots app] in IH.
      inversion IH as [|? ? K1 IH1]; subst. inversion IH1 as [|? ? X1 IH2]; subst. cbn in K1, X1.
      cbn [map flat_map]. rewrite IHl by exact IH2. f_equal. f_equal; now apply D.
    + cbn [norm]. change (enc_fields (map (fun p : finfo * val => let '(fi, x) := p in (fi, norm (field_rt r fi) x)) fs) = enc_fields fs). now apply FF.
    + cbn [norm enc]. f_equal. change (enc_fields (map (fun p : finfo * val => let '(fi, x) := p in (fi, norm (field_rt (nested r tag) fi) x)) fs) = enc_fields fs). now apply FF.
    + apply (slot_items (fun x => forall r, enc (norm r x) = enc x)) in IH. rewrite norm_list. cbn [enc].
      generalize 0. induction IH as [|x l Hx _ IHl]; intros i; [reflexivity|]. cbn. rewrite IHl. f_equal. now apply D.
    + cbn [norm enc]. induction es as [|[k x] l IHl]; [reflexivity|]. cbn [map] in *.
      inversion IH as [|? ? X1 IH2]; subst. cbn in X1. cbn [flat_map]. rewrite IHl by exact IH2. f_equal.
      unfold enc_tagged. rewrite vwty_norm. f_equal. now apply D.
Qed.

Lemma hkeys_norm l : hkeys_distinct (map (fun e : val * val => let '(k, x) := e in (norm rt_default k, norm rt_default x)) l) = hkeys_distinct l.
Proof.
  induction l as [|[k x] l IH]; [reflexivity|]. cbn [map hkeys_distinct]. rewrite IH. f_equal. f_equal.
  clear. induction l as [|[k' x'] l IH]; [reflexivity|]. cbn. now rewrite veqb_norm, IH.
Qed.

Lemma fields_norm_wt ts : Forall (fun p => forall v r, wt (snd p) v = true -> wt (snd p) (norm r v) = true) ts ->
  forall r fs, wt_fields ts fs = true ->
  wt_fields ts (map (fun p : finfo * val => let '(fi, x) := p in (fi, norm (field_rt r fi) x)) fs) = true.
Proof.
  induction 1 as [|[fi t] ts H _ IH]; intros r [|[fj x] fs] W; try discriminate W; [reflexivity|].
  cbn in *. bprop. rewrite !andb_true_iff. auto.
Qed.

Lemma wt_norm t : forall v r, wt t v = true -> wt t (norm r v) = true.
Proof.
  induction t as [k| | | |t IH|t IH|n t IH|ts IH|k t IHk IHt|t IH|si fs IH|st vs IH|t IH|k t IH]
    using ty_ind'; intros v r W; destruct v; try discriminate W; try exact W.
  - destruct o as [x|]; [|reflexivity]. cbn in *. now apply IH.
  - cbn in *. rewrite forallb_forall in *. intros y Hy. apply in_map_iff in Hy. destruct Hy as (x & <- & Hx). auto.
  - cbn in *. bprop. rewrite map_length. apply andb_true_iff. split; [assumption|].
    rewrite forallb_forall in *. intros y Hy. apply in_map_iff in Hy. destruct Hy as (x & <- & Hx). auto.
  - cbn [norm]. rewrite wt_tup_eq in *. revert l W. induction IH as [|t ts H _ IH]; intros [|x l] W; try discriminate W; [reflexivity|].
    cbn in *. bprop. rewrite andb_true_iff. auto.
  - cbn [norm wt] in *. bprop. rewrite hkeys_norm. apply andb_true_iff. split; [|assumption].
    rewrite forallb_forall in *. intros y Hy. apply in_map_iff in Hy. destruct Hy as ([a b] & <- & Hx).
    specialize (H _ Hx). cbn in *. bprop. rewrite andb_true_iff. auto.
  - cbn in *. now apply IH.
  - cbn [norm]. rewrite wt_struct_eq in *. bprop. rewrite !andb_true_iff. repeat split; [assumption|now destruct r0|].
    now apply fields_norm_wt.
  - cbn [norm]. rewrite wt_enum_eq in *. bprop. rewrite !andb_true_iff.
    destruct (find_variant vs tag) as [[[tg c'] ts]|] eqn:F; [|discriminate]. bprop.
    apply find_variant_in in F. destruct F as [F _]. rewrite Forall_forall in IH. specialize (IH _ F). cbn [snd] in IH.
    repeat split; [now destruct r0|now destruct r0|]. rewrite andb_true_iff. split; [assumption|]. now apply fields_norm_wt.
  - rewrite norm_list. cbn [wt] in *. generalize 0. induction l as [|x l IHl]; intros i; [reflexivity|].
    cbn in *. bprop. rewrite andb_true_iff. auto.
  - cbn [norm wt] in *. bprop. rewrite andb_true_iff. split.
    + rewrite forallb_forall in *. intros y Hy. apply in_map_iff in Hy. destruct Hy as ([a b] & <- & Hx).
      specialize (H _ Hx). cbn in *. bprop. rewrite andb_true_iff. auto.
    + rewrite map_map. erewrite map_ext; [eassumption|]. now intros [a b].
Qed.

Lemma veqb_norm_self t v r : ty_ok t = true -> wt t v = true -> veqb v (norm r v) = true.
Proof.
  intros O W. rewrite <- (veqb_norm v (norm r v) r r), norm_norm, veqb_norm.
  destruct (veqb_equiv t) as (R & _); auto.
Qed.

Lemma norm_veqb t a b : wt t a = true -> wt t b = true -> norm rt_default a = norm rt_default b -> veqb a b = true.
Proof.
  intros Wa Wb E. rewrite <- (veqb_norm a b rt_default rt_default), E, veqb_norm.
  destruct (veqb_equiv t) as (R & _); auto.
Qed.

Lemma write_nested_spec v : ser_ok v -> lenN (delimited v (enc v)) < 2 ^ 32 -> forall m h,
  exists h', write_nested m v h = Ok (delimited v (enc v), h').
Proof.
  intros O L m h. unfold write_nested.
  assert (L0 : lenN (enc v) < 2 ^ 32) by (pose proof (delimited_len v (enc v)); lia).
  destruct (cache_size_spec v O L0 m [] h) as [h1 [E1 [A1 _]]]. rewrite E1. cbn [bind].
  destruct (ser_nested_spec m None false [] v (ser_cached m [] v) h1 O) as [h2 [E2 _]]; try assumption; [exact I| |].
  - intros h0 A0. destruct (ser_cached_spec v O L0 m [] h0) as [h' [E S]]; [now apply all_ok_kids|]. eauto.
  - exists h2. exact E2.
Qed.
