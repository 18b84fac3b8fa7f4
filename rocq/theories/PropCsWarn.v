(** C93: what a C# client writes to the console. *)
From Verif Require Import Base Varint WireFmt Utf8 Types Ser Spec De Log State StateSpec Coll ValInd VarintProofs WireProofs SerProofs TypeProofs EqProofs DeProofs RoundTrip MergeProofs NormProofs
  LogProofs TreeProofs CohProofs HandleProofs OpProofs ExecProofs ReplayProofs FrameProofs KeepProofs SimProofs Examples PropLog PropReplay PropState CSharp CSharpProofs CSharpSim CSharpSafe
  Weight WeightProofs CsWeight PropCsWeight EvoProofs CSharpEvo CsCopy PropCsCopy CsWarn PropCSharp.

Lemma assoc_warners p fs tag : assoc tag (warners p fs) = match assoc tag fs with Some (g, c) => Some (c_field_wty g c, warns c (p ++ [tag])) | None => None end.
Proof. induction fs as [|[tag' [g c]] cfs IH]; [reflexivity|]. cbn. destruct (tag =? tag') eqn:E; [apply N.eqb_eq in E; now subst|exact IH]. Qed.
Lemma warns_struct fs p bs : warns (CStruct fs) p bs =
  match c_new_fields fs with Ok xs => run_warns (c_struct_step (c_readers fs)) (fun _ => field_warns (warners p fs) p) xs bs | _ => [] end.
Proof. reflexivity. Qed.
Lemma warns_enum vs p bs : warns (CEnum vs) p bs =
  match c_new (CEnum vs), c_int U32 bs with
  | Ok _, Ok (tag, rest) =>
      match assoc (Z.to_N tag) vs with
      | Some fs => warns (CStruct fs) (p ++ [Z.to_N tag]) rest
      | None => []
      end
  | _, _ => []
  end.
Proof.
  cbn [warns]. destruct (c_new (CEnum vs)) as [d|e| |]; try reflexivity. destruct (c_int U32 bs) as [[tag rest]|e| |]; try reflexivity.
  induction vs as [|[tag' fs] vs IH]; [reflexivity|]. cbn [assoc]. rewrite (N.eqb_sym (Z.to_N tag) tag'). destruct (tag' =? Z.to_N tag) eqn:E; [|exact IH].
  apply N.eqb_eq in E. now subst tag'.
Qed.

(** ** Every line is true *)

Definition tells (t : cty) (p : list N) (x : warning) : Prop := let '(w', q, w) := x in exists r, q = p ++ r /\ expects r t = Some w' /\ w <> w'.

Lemma loop_all {S} (P : warning -> Prop) (step : S -> bytes -> res (S * bytes)) (ct : S -> warner) :
  (forall s bs, Forall P (ct s bs)) -> forall f s bs, Forall P (loop_warns f step ct s bs).
Proof.
  intros G. induction f as [|f IH]; intros s [|b bs]; cbn [loop_warns]; try constructor. apply Forall_app. split; [apply G|].
  destruct (step s (b :: bs)) as [[s' r]|e| |]; try constructor. apply IH.
Qed.
Lemma expects_some r t w : expects r t = Some w -> r <> [].
Proof. intros H ->. destruct t; discriminate H. Qed.
Lemma tells_under t p tag t' x : (forall r, r <> [] -> expects (tag :: r) t = expects r t') -> tells t' (p ++ [tag]) x -> tells t p x.
Proof.
  destruct x as [[w' q] w]. intros H (r & -> & E & D). exists (tag :: r). rewrite <- app_assoc. split; [reflexivity|]. split; [|exact D].
  rewrite H; [exact E|]. now apply expects_some in E.
Qed.
Lemma value_all (P : warning -> Prop) t ct bs : (forall b, Forall P (ct b)) -> Forall P (value_warns t ct bs).
Proof. intros G. unfold value_warns. destruct (c_wty t); [apply G|]. destruct (c_nested bs) as [[sub r]|e| |]; try constructor. apply G. Qed.
Lemma field_all fs p bs : (forall tag g t, assoc tag fs = Some (g, t) -> forall p b, Forall (tells t p) (warns t p b)) ->
  Forall (tells (CStruct fs) p) (field_warns (warners p fs) p bs).
Proof.
  intros H. unfold field_warns. destruct (c_key bs) as [[[tag w] rest]|e| |]; try constructor.
  destruct (match w with Sized => c_nested rest | Varint => Ok (rest, rest) end) as [[sub r]|e| |]; try constructor.
  rewrite assoc_warners. destruct (assoc tag fs) as [[g t]|] eqn:A; [|constructor]. destruct (wtype_eqb w (c_field_wty g t)) eqn:Q.
  - eapply Forall_impl; [|exact (H _ _ _ A (p ++ [tag]) sub)]. intros x. apply tells_under. intros r0 Hr. cbn [expects]. rewrite A. now destruct r0.
  - constructor; [|constructor]. exists [tag]. split; [reflexivity|]. cbn [expects]. rewrite A. split; [reflexivity|]. intros ->. now destruct (c_field_wty g t).
Qed.
Lemma struct_all fs p bs : (forall tag g t, assoc tag fs = Some (g, t) -> forall p b, Forall (tells t p) (warns t p b)) ->
  Forall (tells (CStruct fs) p) (warns (CStruct fs) p bs).
Proof. intros H. rewrite warns_struct. destruct (c_new_fields fs); try constructor. apply loop_all. intros s b. now apply field_all. Qed.

(** Decoding any bytes, whether it succeeds or not: a line is about a field of the class that is at this path, shows the wire type that
    this field has, and another one. *)
Theorem c93_true : forall t p bs expected q got, In (expected, q, got) (warns t p bs) ->
  exists r, q = p ++ r /\ expects r t = Some expected /\ got <> expected.
Proof.
  intros t p bs w' q w H. assert (G : forall t p bs, Forall (tells t p) (warns t p bs)); [|pose proof (G t p bs) as F; rewrite Forall_forall in F; exact (F _ H)].
  clear. induction t using cty_slots; intros p bs; try constructor.
  - cbn [warns]. destruct bs as [|b bs]; [constructor|]. apply value_all. intros b0. eapply Forall_impl; [|apply IHt]. intros x. now apply tells_under.
  - apply loop_all. intros s b. apply value_all. intros b0. eapply Forall_impl; [|apply IHt]. intros x. now apply tells_under.
  - apply loop_all. intros s b. apply value_all. intros b0. eapply Forall_impl; [|apply IHt]. intros x. now apply tells_under.
  - apply loop_all. intros s b. unfold entry_of_map_warns. destruct (c_key b) as [[[tag w] rest]|e| |]; try constructor.
    apply value_all. intros b0. eapply Forall_impl; [|apply IHt]. intros x. now apply tells_under.
  - apply struct_all. intros tag g t A. rewrite Forall_forall in H. exact (H (tag, (g, t)) (assoc_in _ _ _ A)).
  - rewrite warns_enum. destruct (c_new (CEnum vs)); try constructor. destruct (c_int U32 bs) as [[tag r]|e| |]; try constructor.
    destruct (assoc (Z.to_N tag) vs) as [fs|] eqn:A; [|constructor].
    assert (G : Forall (tells (CStruct fs) (p ++ [Z.to_N tag])) (warns (CStruct fs) (p ++ [Z.to_N tag]) r)).
    { apply struct_all. intros tag' g t A'. rewrite Forall_forall in H. pose proof (H _ (assoc_in _ _ _ A)) as H'. cbn [snd] in H'. rewrite Forall_forall in H'.
      exact (H' (tag', (g, t)) (assoc_in _ _ _ A')). }
    eapply Forall_impl; [|exact G]. intros x. apply tells_under. intros r' Hr. cbn [expects]. rewrite A. reflexivity.
Qed.
Print Assumptions c93_true.

Lemma warns_tell t p bs : Forall (tells t p) (warns t p bs).
Proof. apply Forall_forall. intros [[w' q] w] I. exact (c93_true t p bs w' q w I). Qed.
Lemma child_expects t v tag t' x r : c_child t v tag = Ok (Some (t', x)) -> r <> [] -> expects (tag :: r) t = expects r t'.
Proof.
  intros C Hr. destruct t, v; try discriminate C; cbn [c_child expects] in *.
  - destruct (c_state t); [|discriminate C]. destruct (nth_error _ _); [|discriminate C]. now injection C as <- _.
  - destruct (c_state t); [|discriminate C]. destruct (assoc _ _); [|discriminate C]. now injection C as <- _.
  - destruct (assoc tag fs) as [[g t]|]; [|discriminate C]. destruct (c_state t); [|discriminate C]. destruct (assoc tag _); [|discriminate C].
    injection C as <- _. now destruct r.
  - destruct (tag =? _); [|discriminate C]. destruct (assoc tag vs) as [fs'|]; [|discriminate C]. now injection C as <- _.
Qed.
Lemma at_tell op : (forall t v p, Forall (tells t p) (op t v p)) -> forall path t v p, Forall (tells t p) (warns_at t v p path op).
Proof.
  intros G. induction path as [|tag path IH]; intros t v p; cbn [warns_at]; [apply G|]. destruct (c_child t v tag) as [[[t' x]|]|e| |] eqn:C; try constructor.
  eapply Forall_impl; [|apply IH]. intros y. apply tells_under. intros r. exact (child_expects t v tag t' x r C).
Qed.
Lemma handle_tell t e v p : Forall (tells t p) (handle_warns t e v p).
Proof.
  assert (U : forall t p tag t' bs, (forall r, r <> [] -> expects (tag :: r) t = expects r t') -> Forall (tells t p) (warns t' (p ++ [tag]) bs)).
  { clear. intros t p tag t' bs H. eapply Forall_impl; [|apply warns_tell]. intros y. now apply tells_under. }
  destruct e as [path bs|path bs|path|path k]; cbn [handle_warns]; try constructor.
  - destruct path as [|tag path]; [apply warns_tell|]. apply at_tell. clear - U. intros t v p. unfold replace_warns. destruct t; try constructor; destruct v; try constructor.
    + destruct (lenN l <=? _); [constructor|]. now apply U.
    + now apply U.
    + destruct (assoc (last _ _) fs) as [[g t]|] eqn:A; [|constructor]. apply U. intros r Hr. cbn [expects]. rewrite A. now destruct r.
    + destruct (assoc (last _ _) vs) as [fs'|] eqn:A; [|constructor]. apply U. intros r Hr. cbn [expects]. now rewrite A.
  - apply at_tell. clear - U. intros t v p. unfold push_warns. destruct t; try constructor; destruct v; try constructor. now apply U.
Qed.

(** Replaying any bytes on any object: a line is about a field of the root's class, at its path below that of the root, or about a log
    entry. *)
Theorem c93_replay_true : forall t v p bs expected q got, In (expected, q, got) (replay_warns t v p bs) ->
  got <> expected /\ (exists r, q = p ++ r /\ expects r t = Some expected) \/ got <> expected /\ expects q cEntry = Some expected.
Proof.
  intros t v p bs w' q w. unfold replay_warns. generalize (length bs) as f. intros f. revert v bs.
  induction f as [|f IH]; intros v [|b bs] H; cbn [replay_loop_warns] in H; try contradiction H. apply in_app_iff in H. destruct H as [H|H].
  - unfold entry_warns in H. destruct (c_nested (b :: bs)) as [[sub rest]|e| |]; try contradiction H. apply in_app_iff in H. destruct H as [H|H].
    + right. destruct (c93_true _ _ _ _ _ _ H) as (r & -> & E & D). now split.
    + destruct (do (x, _) <- c_deser cEntry sub; c_entry x) as [e|e| |]; try contradiction H. left. pose proof (handle_tell t e v p) as F.
      rewrite Forall_forall in F. destruct (F _ H) as (r & E & X & D). eauto.
  - destruct (c_replay_step t v (b :: bs)) as [v' [rest|e| |]]; try contradiction H. exact (IH _ _ H).
Qed.
Print Assumptions c93_replay_true.

(** ** How many *)

(** Two bytes for each line, but for a last one before an exception. *)
Definition frugal {A} (r : res (A * bytes)) (n : nat) (bs : bytes) : Prop :=
  match r with Ok (_, rest) => 2 * n + length rest <= length bs | _ => 2 * n <= length bs + 1 end%nat.
Lemma loop_frugal {S} (step : S -> bytes -> res (S * bytes)) (ct : S -> warner) :
  (forall s bs, frugal (step s bs) (length (ct s bs)) bs) ->
  forall f s bs, match cloop f step s bs with Ok _ => 2 * length (loop_warns f step ct s bs) <= length bs | _ => 2 * length (loop_warns f step ct s bs) <= length bs + 1 end%nat.
Proof.
  intros G. induction f as [|f IH]; intros s [|b bs]; cbn [cloop loop_warns]; try (cbn [length]; lia).
  specialize (G s (b :: bs)). rewrite app_length. destruct (step s (b :: bs)) as [[s' r]|e| |]; cbn [bind frugal] in *; try (cbn [length] in *; lia).
  specialize (IH s' r). destruct (cloop f step s' r); lia.
Qed.
Definition cheap (t : cty) : Prop := forall p bs, frugal (c_deser t bs) (length (warns t p bs)) bs.
Lemma value_frugal t p bs : cheap t -> frugal (c_value t (c_deser t) bs) (length (value_warns t (warns t p) bs)) bs.
Proof.
  intros P. unfold c_value, value_warns. destruct (c_wty t); [apply P|]. destruct (c_nested bs) as [[sub r]|e| |] eqn:N; cbn [bind frugal length]; try lia.
  apply c_nested_len in N. specialize (P p sub). destruct (c_deser t sub) as [[x rem]|e| |]; cbn [bind frugal] in *; lia.
Qed.
Lemma field_frugal fs p xs bs : (forall tag g t, assoc tag fs = Some (g, t) -> cheap t) ->
  frugal (c_struct_step (c_readers fs) xs bs) (length (field_warns (warners p fs) p bs)) bs.
Proof.
  intros P. unfold c_struct_step, field_warns. destruct (c_key bs) as [[[tag w] r]|e| |] eqn:E; cbn [bind frugal length]; try lia.
  apply (oks_ok _ _ _ (c_key_oks bs)) in E. destruct E as [_ E]. unfold shorter in E. cbn [snd] in E. rewrite assoc_warners, assoc_readers. destruct w.
  - cbn [bind]. assert (SK : forall n, (n <= 1)%nat -> frugal (do (_, rest) <- c_bool r false; Ok (xs, rest)) n bs).
    { intros n Hn. destruct (c_bool r false) as [[b r']|e| |] eqn:F; cbn [bind frugal]; try lia.
      apply (oks_ok _ _ _ (c_bool_oks r false)) in F. unfold shorter in F. cbn [snd] in F. lia. }
    destruct (assoc tag fs) as [[g t]|] eqn:A; [|apply SK; cbn; lia]. destruct (wtype_eqb Varint (c_field_wty g t)); [|apply SK; cbn; lia].
    specialize (P _ _ _ A (p ++ [tag]) r). destruct (c_deser t r) as [[x rem]|e| |]; cbn [bind frugal] in *; lia.
  - destruct (c_nested r) as [[sub r']|e| |] eqn:N; cbn [bind frugal length]; try lia. apply c_nested_len in N.
    destruct (assoc tag fs) as [[g t]|] eqn:A; [|cbn [frugal length]; lia]. destruct (wtype_eqb Sized (c_field_wty g t)); [|cbn [frugal length]; lia].
    specialize (P _ _ _ A (p ++ [tag]) sub). destruct (c_deser t sub) as [[x rem]|e| |]; cbn [bind frugal] in *; lia.
Qed.
Lemma struct_frugal fs p bs : (forall tag g t, assoc tag fs = Some (g, t) -> cheap t) -> frugal (c_deser (CStruct fs) bs) (length (warns (CStruct fs) p bs)) bs.
Proof.
  intros P. rewrite c_deser_struct, warns_struct. destruct (c_new_fields fs) as [xs|e| |]; cbn [bind frugal length]; try lia.
  pose proof (loop_frugal (c_struct_step (c_readers fs)) (fun _ => field_warns (warners p fs) p) (fun s b => field_frugal fs p s b P) (length bs) xs bs) as G.
  unfold run_warns, crun in *. destruct (cloop _ _ xs bs); cbn [bind frugal length] in *; lia.
Qed.
Lemma deser_frugal t : cheap t.
Proof.
  induction t using cty_slots; intros p bs.
  - cbn [warns c_deser]. destruct (c_int k bs) as [[z r]|e| |] eqn:I; cbn [bind frugal length]; try lia.
    apply (oks_ok _ _ _ (c_int_oks k bs)) in I. destruct I as [_ I]. unfold shorter in I. cbn [snd] in I. lia.
  - cbn [warns c_deser]. destruct (c_bool bs false) as [[z r]|e| |] eqn:I; cbn [bind frugal length]; try lia.
    apply (oks_ok _ _ _ (c_bool_oks bs false)) in I. unfold shorter in I. cbn [snd] in I. lia.
  - cbn [warns c_deser frugal length]. lia.
  - cbn [warns c_deser frugal length]. lia.
  - cbn [warns c_deser]. destruct bs as [|b bs]; [cbn [frugal length]; lia|]. pose proof (value_frugal t (p ++ [0]) (b :: bs) IHt) as V.
    destruct (c_value t (c_deser t) (b :: bs)) as [[y r]|e| |]; cbn [bind frugal] in *; lia.
  - pose proof (loop_frugal (c_item_step t (c_deser t)) (item_warns t (warns t) p)) as G. cbn [warns c_deser]. unfold run_warns, crun. specialize (fun H => G H (length bs) [] bs).
    destruct (cloop _ _ [] bs); cbn [bind frugal length]; rewrite ?Nat.add_0_r; apply G; clear - IHt; intros s b; unfold c_item_step, item_warns;
      pose proof (value_frugal t (p ++ [lenN s]) b IHt) as V; destruct (c_value t (c_deser t) b) as [[y r]|e| |]; cbn [bind frugal] in *; lia.
  - pose proof (loop_frugal (c_item_step t (c_deser t)) (item_warns t (warns t) p)) as G. cbn [warns c_deser]. unfold run_warns, crun. specialize (fun H => G H (length bs) [] bs).
    destruct (cloop _ _ [] bs); cbn [bind frugal length]; rewrite ?Nat.add_0_r; apply G; clear - IHt; intros s b; unfold c_item_step, item_warns;
      pose proof (value_frugal t (p ++ [lenN s]) b IHt) as V; destruct (c_value t (c_deser t) b) as [[y r]|e| |]; cbn [bind frugal] in *; lia.
  - pose proof (loop_frugal (c_map_step t (c_deser t)) (entry_of_map_warns t (warns t) p)) as G. cbn [warns c_deser]. unfold run_warns, crun. specialize (fun H => G H (length bs) [] bs).
    destruct (cloop _ _ [] bs); cbn [bind frugal length]; rewrite ?Nat.add_0_r; apply G; clear - IHt; intros s b; unfold c_map_step, entry_of_map_warns;
      (destruct (c_key b) as [[[tag w] r0]|e| |] eqn:E; cbn [bind frugal length]; try lia);
      apply (oks_ok _ _ _ (c_key_oks b)) in E; destruct E as [_ E]; unfold shorter in E; cbn [snd] in E;
      pose proof (value_frugal t (p ++ [tag]) r0 IHt) as V; destruct (c_value t (c_deser t) r0) as [[y r]|e| |]; cbn [bind frugal] in *; lia.
  - apply struct_frugal. intros tag g t A. rewrite Forall_forall in H. exact (H (tag, (g, t)) (assoc_in _ _ _ A)).
  - rewrite warns_enum, c_deser_enum. destruct (c_new (CEnum vs)) as [d|e| |]; cbn [bind frugal length]; try lia.
    destruct (c_int U32 bs) as [[tag r]|e| |] eqn:I; cbn [bind frugal length]; try lia.
    apply (oks_ok _ _ _ (c_int_oks U32 bs)) in I. destruct I as [_ I]. unfold shorter in I. cbn [snd] in I.
    destruct (assoc (Z.to_N tag) vs) as [fs|] eqn:A; [|cbn [frugal length]; lia].
    assert (G : frugal (c_deser (CStruct fs) r) (length (warns (CStruct fs) (p ++ [Z.to_N tag]) r)) r).
    { apply struct_frugal. intros tag' g t A'. rewrite Forall_forall in H. pose proof (H _ (assoc_in _ _ _ A)) as H'. cbn [snd] in H'. rewrite Forall_forall in H'.
      exact (H' (tag', (g, t)) (assoc_in _ _ _ A')). }
    rewrite c_deser_struct in G. destruct (c_new_fields fs) as [xs|e| |]; cbn [bind frugal] in *; try lia. destruct (crun _ xs r); cbn [bind frugal length] in *; lia.
Qed.
Lemma at_few n op : (forall t v p, (2 * length (op t v p) <= n)%nat) -> forall path t v p, (2 * length (warns_at t v p path op) <= n)%nat.
Proof.
  intros G. induction path as [|tag path IH]; intros t v p; cbn [warns_at]; [apply G|]. destruct (c_child t v tag) as [[[t' x]|]|e| |]; cbn [length]; try lia. apply IH.
Qed.
Lemma handle_few t e v p : (2 * length (handle_warns t e v p) <= length (payload e) + 1)%nat.
Proof.
  assert (D : forall t p bs, (2 * length (warns t p bs) <= length bs + 1)%nat).
  { clear. intros t p bs. pose proof (deser_frugal t p bs) as F. unfold frugal in F. destruct (c_deser t bs) as [[x r]|e| |]; lia. }
  destruct e as [path bs|path bs|path|path k]; cbn [handle_warns payload length]; try lia.
  - destruct path as [|tag path]; [apply D|]. apply at_few. clear - D. intros t v p. unfold replace_warns. destruct t; cbn [length]; try lia; destruct v; cbn [length]; try lia.
    + destruct (lenN l <=? _); cbn [length]; [lia|apply D].
    + apply D.
    + destruct (assoc _ fs) as [[g t]|]; cbn [length]; [apply D|lia].
    + destruct (assoc _ vs) as [fs'|]; cbn [length]; [apply D|lia].
  - apply at_few. clear - D. intros t v p. unfold push_warns. destruct t; cbn [length]; try lia; destruct v; cbn [length]; try lia. apply D.
Qed.

(** No flood: a line for every two bytes decoded, and for every byte replayed. *)
Theorem c93_count : forall t p bs v, (2 * length (warns t p bs) <= length bs + 1 /\ length (replay_warns t v p bs) <= length bs)%nat.
Proof.
  intros t p bs v. split.
  - pose proof (deser_frugal t p bs) as F. unfold frugal in F. destruct (c_deser t bs) as [[x r]|e| |]; lia.
  - unfold replay_warns. enough (G : forall f v bs, (length (replay_loop_warns f t v p bs) <= length bs)%nat) by apply G.
    clear v bs. induction f as [|f IH]; intros v [|b bs]; cbn [replay_loop_warns]; try (cbn [length]; lia). rewrite app_length.
    unfold entry_warns, c_replay_step. destruct (c_nested (b :: bs)) as [[sub rest]|e| |] eqn:N; cbn [bind try length]; try lia.
    apply c_nested_len in N. rewrite app_length. pose proof (deser_frugal cEntry [] sub) as F. unfold frugal in F.
    destruct (c_deser cEntry sub) as [[x r']|x| |] eqn:D; cbn [bind try length] in *; try lia.
    apply (deser_pays 0 1) in D; [|cbn; lia]. change (cnew_weight 0 cEntry) with 0%nat in D.
    destruct (c_entry x) as [e|y| |] eqn:E; cbn [bind try length]; try lia.
    assert (P : (length (payload e) <= cweight 0 x)%nat).
    { unfold c_entry in E. destruct x; try discriminate E.
      repeat match type of E with context [match ?x with _ => _ end] => destruct x; try discriminate E end; injection E as <-; cbn; lia. }
    pose proof (handle_few t e v p) as Hf. destruct (c_handle t e v) as [v'|y| |]; cbn [bind try length]; try lia. specialize (IH v' rest). lia.
Qed.
Print Assumptions c93_count.

(** ** What a server writes *)

Definition CW (t : ty) : Prop := forall c v rest p, ty_ok t = true -> cls t c = true -> cls_ok c = true -> wt t v = true -> c_carried v = true ->
  lenN (enc v) < 2 ^ 31 -> (wty t = Sized -> rest = []) -> warns c p (enc v ++ rest) = [].

Lemma value_quiet t c v rest p : CW t -> ty_ok t = true -> cls t c = true -> cls_ok c = true -> wt t v = true -> c_carried v = true ->
  lenN (enc v) < 2 ^ 31 -> value_warns c (warns c p) (delimited v (enc v) ++ rest) = [].
Proof.
  intros H O C K W S L. unfold value_warns, delimited. rewrite (wt_vwty t v W), (cls_wty t c C). destruct (wty t) eqn:E.
  - apply H; try assumption. congruence.
  - rewrite <- app_assoc, c_nested_spec by exact L. pose proof (H c v [] p O C K W S L (fun _ => eq_refl)) as D. now rewrite app_nil_r in D.
Qed.
Lemma loop_quiet {S} fuel (step : S -> bytes -> res (S * bytes)) (ct : S -> warner) s a b s' : a <> [] -> (length (a ++ b) <= fuel)%nat ->
  ct s (a ++ b) = [] -> step s (a ++ b) = Ok (s', b) -> exists fuel', (length b <= fuel')%nat /\ loop_warns fuel step ct s (a ++ b) = loop_warns fuel' step ct s' b.
Proof.
  intros H L Q E. destruct a as [|x a]; [congruence|]. cbn [app length] in L. destruct fuel as [|fuel]; [lia|]. rewrite app_length in L.
  exists fuel. split; [lia|]. cbn [app loop_warns] in *. now rewrite Q, E.
Qed.
Lemma items_quiet t c p : CW t -> ty_ok t = true -> cls t c = true -> cls_ok c = true -> forall l pre fuel,
  forallb (wt t) l = true -> forallb c_carried l = true -> lenN (flat_map (fun x => delimited x (enc x)) l) < 2 ^ 31 ->
  (length (flat_map (fun x => delimited x (enc x)) l) <= fuel)%nat ->
  loop_warns fuel (c_item_step c (c_deser c)) (item_warns c (warns c) p) pre (flat_map (fun x => delimited x (enc x)) l) = [].
Proof.
  intros H O C K. induction l as [|x l IH]; intros pre fuel W S L F; [now destruct fuel|].
  rewrite enc_items_cons in *. rewrite lenN_app in L. cbn [forallb] in *. bprop.
  assert (Lx : lenN (enc x) < 2 ^ 31) by (pose proof (delimited_len x (enc x)); lia).
  destruct (value_cs t c x (flat_map (fun x => delimited x (enc x)) l) (c_decode t) O C K) as (y & E & _); try assumption.
  destruct (loop_quiet fuel (c_item_step c (c_deser c)) (item_warns c (warns c) p) pre (delimited x (enc x)) (flat_map (fun x => delimited x (enc x)) l) (pre ++ [y])) as (f' & F' & E').
  - now apply (delimited_nonempty t).
  - exact F.
  - now apply (value_quiet t).
  - unfold c_item_step. now rewrite E.
  - rewrite E'. apply IH; try assumption. lia.
Qed.
Lemma entries_quiet t c p : CW t -> ty_ok t = true -> cls t c = true -> cls_ok c = true -> forall es pre fuel,
  Forall (fun e => wt t (snd e) = true) es -> forallb (fun e : N * val => let '(k, x) := e in (k <=? FIELD_NUMBER_MAX) && c_carried x) es = true ->
  lenN (enc_entries es) < 2 ^ 31 -> (length (enc_entries es) <= fuel)%nat ->
  loop_warns fuel (c_map_step c (c_deser c)) (entry_of_map_warns c (warns c) p) pre (enc_entries es) = [].
Proof.
  intros H O C K. induction es as [|[k x] es IH]; intros pre fuel W S L F; [now destruct fuel|].
  change (enc_entries ((k, x) :: es)) with (enc_tagged k x (enc x) ++ enc_entries es) in *. rewrite lenN_app in L.
  inversion W as [|? ? W1 W2]; subst. cbn [forallb snd] in *. bprop. unfold enc_tagged in L. rewrite lenN_app in L.
  assert (Lx : lenN (enc x) < 2 ^ 31) by (pose proof (delimited_len x (enc x)); lia).
  destruct (value_cs t c x (enc_entries es) (c_decode t) O C K) as (y & E & _); try assumption.
  destruct (loop_quiet fuel (c_map_step c (c_deser c)) (entry_of_map_warns c (warns c) p) pre (enc_tagged k x (enc x)) (enc_entries es) (im_insert k y pre)) as (f' & F' & E').
  - apply enc_tagged_nonempty.
  - exact F.
  - unfold entry_of_map_warns, enc_tagged. rewrite <- app_assoc, c_key_num by lia. now apply (value_quiet t).
  - unfold c_map_step, enc_tagged. rewrite <- app_assoc, c_key_num by lia. cbn [bind]. rewrite E. reflexivity.
  - rewrite E'. apply IH; try assumption. lia.
Qed.
Lemma fields_quiet st rs ws p : forall fts fs cfs xs fuel, Forall (fun p => CW (snd p)) fts -> fields_ok st fts = true ->
  cls_fields fts cfs = true -> cls_ok_fields cfs = true -> wt_fields fts fs = true ->
  forallb (fun p : finfo * val => let '(_, x) := p in c_carried x) fs = true -> lenN (enc_fields fs) < 2 ^ 31 -> (length (enc_fields fs) <= fuel)%nat ->
  (forall tag g c, In (tag, (g, c)) cfs -> assoc tag rs = Some (c_field_wty g c, c_deser c) /\ assoc tag ws = Some (c_field_wty g c, warns c (p ++ [tag]))) ->
  loop_warns fuel (c_struct_step rs) (fun _ => field_warns ws p) xs (enc_fields fs) = [].
Proof.
  induction fts as [|[fi t] fts IH]; intros [|[fj x] fs] [|[tag [g c]] cfs] xs fuel HC O C K W S L F R; try discriminate C; try discriminate W; [now destruct fuel|].
  inversion HC as [|? ? H1 H2]; subst. cbn [snd] in H1.
  assert (K1 : cls_ok_fields [(0, (g, c))] = true /\ cls_ok_fields cfs = true).
  { unfold cls_ok_fields in *. cbn [forallb] in *. bprop. rewrite andb_true_r. split; [|assumption]. apply andb_true_iff. auto. }
  destruct K1 as [K1 K2]. unfold cls_ok_fields in K. unfold fields_ok in O. cbn [cls_fields forallb wt_fields] in *. bprop.
  match goal with X : finfo_eqb _ _ = true |- _ => apply finfo_eqb_eq in X; subst fj end.
  match goal with X : (f_tag fi =? tag) = true |- _ => apply N.eqb_eq in X; subst tag end.
  rewrite enc_fields_cons in *. cbn [fst snd] in *. rewrite lenN_app in L.
  assert (Next : forall xs f', (length (enc_fields fs) <= f')%nat -> loop_warns f' (c_struct_step rs) (fun _ => field_warns ws p) xs (enc_fields fs) = []).
  { intros xs' f' F'. apply (IH fs cfs); try assumption; [lia|]. intros tag g' c' I. apply R. now right. }
  destruct (left_out x (enc x)) eqn:Lo; [now apply Next|].
  assert (St : field_warns ws p (enc_tagged (f_tag fi) x (enc x) ++ enc_fields fs) = [] /\
    exists y, c_struct_step rs xs (enc_tagged (f_tag fi) x (enc x) ++ enc_fields fs) = Ok (c_put (f_tag fi) y xs, enc_fields fs)).
  { unfold enc_tagged in *. rewrite lenN_app in L. rewrite <- app_assoc. unfold field_warns, c_struct_step. rewrite c_key_num by lia. cbn [bind].
    destruct (R (f_tag fi) g c (or_introl eq_refl)) as [-> ->]. rewrite (c_field_wty_eq t g c) by assumption.
    unfold delimited in *. rewrite (wt_vwty t x) in * by assumption. destruct (wty t) eqn:Wt; cbn [wtype_eqb].
    - cbn [bind]. destruct (c_decode t c x (enc_fields fs)) as (y & E & _); try assumption; [lia|congruence|].
      rewrite E. cbn [bind]. split; [|eauto]. apply H1; try assumption; [lia|congruence].
    - rewrite lenN_app in L. rewrite <- app_assoc, c_nested_spec by lia. cbn [bind].
      destruct (c_decode t c x []) as (y & E & _); try assumption; [lia|reflexivity|]. rewrite app_nil_r in E.
      rewrite E. cbn [bind]. split; [|eauto]. rewrite <- (app_nil_r (enc x)). apply H1; try assumption; [lia|reflexivity]. }
  destruct St as (Q & y & St).
  destruct (loop_quiet fuel _ (fun _ => field_warns ws p) _ _ _ _ (enc_tagged_nonempty (f_tag fi) x (enc x)) F Q St) as (f' & F' & E'). rewrite E'. now apply Next.
Qed.
Lemma struct_quiet st fts fs cfs p : Forall (fun p => CW (snd p)) fts -> fields_ok st fts = true ->
  nodupb (map (fun p : finfo * ty => f_tag (fst p)) fts) = true ->
  cls_fields fts cfs = true -> cls_ok_fields cfs = true -> wt_fields fts fs = true ->
  forallb (fun p : finfo * val => let '(_, x) := p in c_carried x) fs = true -> lenN (enc_fields fs) < 2 ^ 31 -> warns (CStruct cfs) p (enc_fields fs) = [].
Proof.
  intros H O Nd C K W S L. apply nodupb_nodup in Nd. rewrite <- (cls_tags fts cfs C) in Nd. rewrite warns_struct.
  destruct (c_new_fields cfs) as [ys|e| |]; try reflexivity. apply (fields_quiet st _ _ _ fts fs cfs); try assumption; [lia|].
  intros tag g c I. split; [now apply c_readers_in|]. now rewrite assoc_warners, (assoc_nodup _ _ _ Nd I).
Qed.
Lemma quiet t : CW t.
Proof.
  induction t as [k| | | |t IH|t IH|n t IH|ts IH|kt vt IHk IHt|t IH|si fts IH|st vs IH|t IH|k t IH] using ty_ind';
    intros c v rest p O C K W S L R; destruct v as [k' z|b|s|s|o|l|l|l|l|v|cc r fs|tag cc r fs|r l|r es]; try discriminate W;
    try (destruct c; discriminate C || reflexivity).
  - destruct c; try discriminate C. rewrite (R eq_refl), app_nil_r. destruct o as [x|]; [|reflexivity].
    cbn [ty_ok cls cls_ok wt c_carried enc warns] in *. pose proof (delimited_nonempty t x W) as Nn.
    pose proof (value_quiet t c x [] (p ++ [0]) IH O C K W S) as E. rewrite app_nil_r in E.
    destruct (delimited x (enc x)) as [|b bs] eqn:D; [congruence|]. apply E. rewrite <- D in L. pose proof (delimited_len x (enc x)). lia.
  - destruct c; try discriminate C. rewrite (R eq_refl), app_nil_r. cbn [ty_ok cls cls_ok wt c_carried enc warns] in *. now apply (items_quiet t).
  - destruct c; try discriminate C. rewrite (R eq_refl), app_nil_r. cbn [ty_ok cls cls_ok wt c_carried enc warns] in *. bprop. now apply (items_quiet t).
  - cbn [ty_ok wt c_carried enc wty] in *. exact (IH c v rest p O C K W S L R).
  - destruct c as [| | | | | | | |cfs|]; try discriminate C. rewrite (R eq_refl), app_nil_r. rewrite ty_ok_struct in O. rewrite wt_struct_eq in W. bprop. rewrite cls_struct in C.
    rewrite enc_struct in *. now apply (struct_quiet (s_state si) fts).
  - destruct c as [| | | | | | | | |cvs]; try discriminate C. rewrite (R eq_refl), app_nil_r. rewrite cls_enum in C.
    destruct (wt_enum_inv _ _ _ _ _ _ W) as (c' & fts & V & -> & Wf & _). destruct (cls_find vs _ _ _ C V) as (cfs & A & Cf). cbn [snd] in Cf.
    pose proof (find_variant_in _ _ _ V) as [I _]. pose proof (variant_fields_ok _ _ _ O I) as (Ht & Of & Nt). cbn [fst snd] in Of, Nt, Ht.
    rewrite Forall_forall in IH. specialize (IH _ I). cbn [snd] in IH. rewrite enc_enum in *. rewrite lenN_app in L.
    assert (Ti : c_int U32 (leb128 tag ++ enc_fields fs) = Ok (Z.of_N tag, enc_fields fs)).
    { assert (Rg : in_range U32 (Z.of_N tag) = true).
      { unfold in_range. cbn [isigned ibits]. unfold FIELD_NUMBER_MAX in Ht. zpow. lia. }
      pose proof (c_int_spec U32 (Z.of_N tag) (enc_fields fs) Rg) as X. unfold wire_num in X. cbn [isigned] in X. rewrite N2Z.id in X. rewrite X.
      unfold cint_safe. now rewrite Rg. }
    rewrite warns_enum, Ti. destruct (c_new (CEnum cvs)); try reflexivity. rewrite N2Z.id, A. apply (struct_quiet st fts); try assumption; [|lia].
    cbn [cls_ok] in K. rewrite forallb_forall in K. exact (K _ (assoc_in _ _ _ A)).
  - destruct c; try discriminate C. rewrite (R eq_refl), app_nil_r. cbn [ty_ok cls cls_ok wt c_carried enc warns] in *. bprop. now apply (items_quiet t).
  - destruct c; try discriminate C. rewrite (R eq_refl), app_nil_r. cbn [ty_ok cls cls_ok wt c_carried enc warns] in *. bprop.
    change (flat_map (fun e : N * val => let '(k, x) := e in enc_tagged k x (enc x)) es) with (enc_entries es) in *.
    apply (entries_quiet t); try assumption; [|unfold run_warns; lia].
    clear S. match goal with H : forallb _ es = true |- _ => clear - H; apply forallb_Forall in H; eapply Forall_impl; [|exact H] end. intros [k0 x] X. cbn [fst snd] in *. apply andb_true_iff in X. now destruct X.
Qed.

(** A client with the classes of the server's types is silent about what the server writes. *)
Theorem c93_silent : forall t c v p, ty_ok t = true -> cls t c = true -> cls_ok c = true -> wt t v = true -> c_carried v = true ->
  lenN (enc v) < 2 ^ 31 -> warns c p (enc v) = [].
Proof. intros t c v p O C K W S L. rewrite <- (app_nil_r (enc v)). now apply (quiet t). Qed.
Print Assumptions c93_silent.

Lemma warns_rel c tag e w p : flat e = false -> handle_warns c (rel [tag] e) w p =
  match c_child c w tag with Ok (Some (c', y)) => handle_warns c' e y (p ++ [tag]) | _ => [] end.
Proof.
  intros F. destruct e as [q bs|q bs|q|q k]; cbn [rel app handle_warns].
  - destruct q as [|n q]; [discriminate F|]. change (last (tag :: n :: q) 0) with (last (n :: q) 0). change (removelast (tag :: n :: q)) with (tag :: removelast (n :: q)). reflexivity.
  - reflexivity.
  - now destruct (c_child c w tag) as [[[c' y]|]|x| |].
  - now destruct (c_child c w tag) as [[[c' y]|]|x| |].
Qed.
Lemma handle_quiet t e : typed t e -> forall c w p, ty_ok t = true -> cls t c = true -> cls_ok c = true -> lenN (entry_bytes e) < 2 ^ 31 -> handle_warns c e w p = [].
Proof.
  assert (Arg : forall t x c p, arg_ok t x -> ty_ok t = true -> cls t c = true -> cls_ok c = true -> lenN (enc x) < 2 ^ 31 -> warns c p (enc x) = []).
  { intros t0 x c p (Wx & Lx & _) O C K B. apply lossless_and in Lx. destruct Lx as (L1 & L2 & _). apply (c93_silent t0); try assumption. now apply carried. }
  assert (Fld : forall fts cfs fn fi t e w p, cls_fields fts cfs = true -> cls_ok_fields cfs = true -> find_field fn fts = Some (fi, t) ->
    (forall c, cls t c = true -> cls_ok c = true -> forall w p, handle_warns c e w p = []) -> handle_warns (CStruct cfs) (rel [fn] e) w p = []).
  { clear. intros fts cfs fn fi t e w p C K F G. destruct (cls_field fts cfs fn fi t C K F) as (g & c & A & Cc & Kc). destruct (flat e) eqn:Fl.
    - destruct e as [[|n q] bs| | |]; try discriminate Fl. cbn [rel app handle_warns removelast last warns_at]. unfold replace_warns. destruct w; try reflexivity.
      rewrite A. apply (G c Cc Kc (CVBool false)).
    - rewrite warns_rel by exact Fl. destruct w; try reflexivity. cbn [c_child]. rewrite A. destruct (c_state c); [|reflexivity].
      destruct (assoc fn fs) as [y|]; [|reflexivity]. now apply G. }
  induction 1 as [t x A|t x A|t|kk t k|t e H IH|si fts fn fi t e F Fs H IH|st vs tag va fn fi t e V F Fs H IH|t i e H IH|kk t k e H IH];
    intros c w p O C K B; try reflexivity.
  - cbn [handle_warns entry_bytes] in *. now apply (Arg t).
  - destruct c as [| | | | | |c| | |]; try discriminate C. cbn [handle_warns warns_at entry_bytes cls cls_ok ty_ok] in *. bprop.
    unfold push_warns. destruct w; try reflexivity. now apply (Arg t).
  - now apply (IH c).
  - destruct c as [| | | | | | | |cfs|]; try discriminate C. pose proof O as O'. rewrite ty_ok_struct in O'. bprop. rewrite cls_struct in C. apply (Fld fts cfs fn fi t); try assumption.
    intros c Cc Kc w' p'. apply (IH c); try assumption; [|now destruct e].
    match goal with X : fields_ok _ _ = true |- _ => exact (proj1 (fields_ok_in _ _ _ _ X (find_field_in _ _ _ F))) end.
  - destruct c as [| | | | | | | | |cvs]; try discriminate C. rewrite cls_enum in C. destruct (cls_find vs cvs tag _ C V) as (cfs & Av & Cf).
    pose proof (find_variant_in _ _ _ V) as [I _]. pose proof (variant_fields_ok _ _ _ O I) as (_ & Of & _).
    assert (Kf : cls_ok_fields cfs = true) by (cbn [cls_ok] in K; rewrite forallb_forall in K; exact (K _ (assoc_in _ _ _ Av))).
    change [tag; fn] with ([tag] ++ [fn]). rewrite rel_app. rewrite warns_rel by now destruct e. destruct w as [| | | | | | | | |tag0 xs]; try reflexivity. cbn [c_child].
    destruct (tag =? tag0); [|reflexivity]. rewrite Av. apply (Fld (snd va) cfs fn fi t); try assumption.
    intros c Cc Kc w' p'. apply (IH c); try assumption; [|now destruct e]. exact (proj1 (fields_ok_in _ _ _ _ Of (find_field_in _ _ _ F))).
  - destruct c as [| | | | | |c| | |]; try discriminate C. cbn [ty_ok cls cls_ok] in *. bprop. assert (B' : lenN (entry_bytes e) < 2 ^ 31) by now destruct e.
    destruct (flat e) eqn:Fl.
    + destruct e as [[|n q] bs| | |]; try discriminate Fl. cbn [rel app handle_warns removelast last warns_at]. unfold replace_warns. destruct w; try reflexivity.
      destruct (lenN l <=? i); [reflexivity|]. now apply (IH c (CVBool false)).
    + rewrite warns_rel by exact Fl. destruct w; try reflexivity. cbn [c_child]. destruct (c_state c); [|reflexivity].
      destruct (nth_error l (N.to_nat i)) as [y|]; [|reflexivity]. now apply IH.
  - destruct c as [| | | | | | |c| |]; try discriminate C. cbn [ty_ok cls cls_ok] in *. bprop. assert (B' : lenN (entry_bytes e) < 2 ^ 31) by now destruct e.
    destruct (flat e) eqn:Fl.
    + destruct e as [[|n q] bs| | |]; try discriminate Fl. cbn [rel app handle_warns removelast last warns_at]. unfold replace_warns. destruct w; try reflexivity.
      now apply (IH c (CVBool false)).
    + rewrite warns_rel by exact Fl. destruct w; try reflexivity. cbn [c_child]. destruct (c_state c); [|reflexivity].
      destruct (assoc k _) as [y|]; [|reflexivity]. now apply IH.
Qed.
Lemma replay_quiet t c p es : ty_ok t = true -> cls t c = true -> cls_ok c = true -> Forall (typed t) es -> Forall cfits es ->
  forall w, replay_warns c w p (concat (map entry_wire es)) = [].
Proof.
  intros O C K T F w. unfold replay_warns. enough (G : forall f w, replay_loop_warns f c w p (concat (map entry_wire es)) = []) by apply G. clear w.
  induction T as [|e es Te _ IH]; intros f w; [now destruct f|]. inversion F as [|? ? [Oe L] F2]; subst. specialize (IH F2). cbn [map concat].
  assert (Lb : lenN (enc (entry_val e)) < 2 ^ 31) by (unfold entry_wire in L; cbv zeta in L; rewrite lenN_app in L; lia).
  assert (Ne : entry_wire e ++ concat (map entry_wire es) <> []).
  { unfold entry_wire. cbv zeta. pose proof (leb128_nonempty (lenN (enc (entry_val e)))). destruct (leb128 _); [congruence|discriminate]. }
  assert (Nx : c_nested (entry_wire e ++ concat (map entry_wire es)) = Ok (enc (entry_val e), concat (map entry_wire es))).
  { unfold entry_wire. cbv zeta. now rewrite <- app_assoc, c_nested_spec by exact Lb. }
  destruct (entry_wire e ++ concat (map entry_wire es)) as [|b bs] eqn:B; [congruence|]. destruct f as [|f]; [reflexivity|]. cbn [replay_loop_warns].
  destruct (c_read_entry e Oe Lb) as (x & D & X). unfold entry_warns, c_replay_step. rewrite Nx. cbn [bind try]. rewrite D. cbn [bind]. rewrite X. cbn [bind try].
  pose proof (lossless_entry e Oe) as Le. apply lossless_and in Le. destruct Le as (L1 & L2 & _).
  rewrite (c93_silent tEntry cEntry (entry_val e) [] eq_refl eq_refl eq_refl (wt_entry e Oe) (carried _ L1 L2) Lb).
  rewrite (handle_quiet t e Te c w p O C K) by (pose proof (entry_bytes_len e); lia). cbn [app].
  destruct (c_handle c e w) as [w'|y| |]; cbn [bind try]; try reflexivity. apply IH.
Qed.

(** Nor does the replay of its log: the calls that C45 is about, on any object of the class, whatever it looks like. *)
Theorem c93_replay : forall m m' t c lg v cs w p,
  ty_ok t = true -> state_ty t = true -> cls t c = true -> cls_ok c = true ->
  wt t v = true -> placed (mkRt lg Root) t v -> legal m t v cs ->
  exists v' evs rets b, exec m t v cs = (v', (evs, Ok rets)) /\ feeds m lg (rl_new []) evs = Ok (mkRL b 0) /\
    (Forall cfits (map fst b) -> exists bs b', buf_bytes m' b = Ok (bs, b') /\ replay_warns c w p bs = []).
Proof.
  intros m m' t c lg v cs w p O S C K W Pl Lg. apply placed_coh in Pl; try assumption.
  destruct (exec_effect m t (mkRt lg Root) O S cs v W Pl Lg) as (v' & evs & rets & es & E & W' & C' & Len & L & T & Rp).
  exists v', evs, rets, (bufd es). split; [exact E|].
  change (collect_values (rt_path (mkRt lg Root))) with (@nil N) in L. rewrite map_rel_nil in L. split; [exact (L [])|].
  rewrite map_fst_bufd. intros F.
  assert (Ff : Forall fits es) by (eapply Forall_impl; [|exact F]; intros e [X Y]; split; [exact X|change (2 ^ 32) with (2 * 2 ^ 31); lia]).
  destruct (buf_bytes_spec m' (bufd es)) as (b' & Eb & _); [now rewrite map_fst_bufd|].
  exists (concat (map entry_wire es)), b'. split; [now rewrite Eb, map_fst_bufd|]. now apply (replay_quiet t).
Qed.
Print Assumptions c93_replay.

(** ** Fields of another type *)

Lemma loop_enough_warns {S} (step : S -> bytes -> res (S * bytes)) (ct : S -> warner) : (forall s bs s' r, step s bs = Ok (s', r) -> (length r < length bs)%nat) ->
  forall f f' s bs, (length bs <= f)%nat -> (length bs <= f')%nat -> loop_warns f step ct s bs = loop_warns f' step ct s bs.
Proof.
  intros G. induction f as [|f IH]; intros [|f'] s [|b bs] L L'; try reflexivity; try (cbn [length] in *; lia). cbn [loop_warns]. f_equal.
  destruct (step s (b :: bs)) as [[s' r]|e| |] eqn:E; try reflexivity. apply G in E. cbn [length] in *. apply IH; lia.
Qed.
Lemma loop_enough_reads {S} (step : S -> bytes -> res (S * bytes)) : (forall s bs s' r, step s bs = Ok (s', r) -> (length r < length bs)%nat) ->
  forall f f' s bs, (length bs <= f)%nat -> (length bs <= f')%nat -> cloop f step s bs = cloop f' step s bs.
Proof.
  intros G. induction f as [|f IH]; intros [|f'] s [|b bs] L L'; try reflexivity; try (cbn [length] in *; lia). cbn [cloop].
  destruct (step s (b :: bs)) as [[s' r]|e| |] eqn:E; try reflexivity. cbn [bind]. apply G in E. cbn [length] in *. apply IH; lia.
Qed.
Lemma field_shorter fs xs bs xs' r : c_struct_step (c_readers fs) xs bs = Ok (xs', r) -> (length r < length bs)%nat.
Proof.
  unfold c_struct_step. intros H. destruct (c_key bs) as [[[tag w] r0]|e| |] eqn:E; cbn [bind] in H; try discriminate H.
  apply (oks_ok _ _ _ (c_key_oks bs)) in E. destruct E as [_ E]. unfold shorter in E. cbn [snd] in E. rewrite assoc_readers in H. destruct w.
  - cbn [bind] in H.
    assert (SK : (do (_, rest) <- c_bool r0 false; Ok (xs, rest)) = Ok (xs', r) -> (length r < length bs)%nat).
    { destruct (c_bool r0 false) as [[b r']|e| |] eqn:F; cbn [bind]; intros X; try discriminate X. injection X as _ <-.
      apply (oks_ok _ _ _ (c_bool_oks r0 false)) in F. unfold shorter in F. cbn [snd] in F. lia. }
    destruct (assoc tag fs) as [[g t]|] eqn:A; [|now apply SK]. destruct (wtype_eqb Varint (c_field_wty g t)); [|now apply SK].
    pose proof (deser_frugal t [] r0) as P. destruct (c_deser t r0) as [[x rem]|e| |]; cbn [bind frugal] in *; try discriminate H. injection H as _ <-. lia.
  - destruct (c_nested r0) as [[sub r']|e| |] eqn:N; cbn [bind] in H; try discriminate H. apply c_nested_len in N.
    destruct (assoc tag fs) as [[g t]|] eqn:A; [|injection H as _ <-; lia]. destruct (wtype_eqb Sized (c_field_wty g t)); [|injection H as _ <-; lia].
    destruct (c_deser t sub) as [[x rem]|e| |]; cbn [bind] in *; try discriminate H. injection H as _ <-. lia.
Qed.

(** A field that is written with another type than the class has, or that it has not: the rest is read as if the field was not there.
    With another wire type there is one line for it; a field that the class does not have is skipped without one. *)
Theorem c93_ignored : forall fs xs tag x rest p, c_new_fields fs = Ok xs -> tag <= FIELD_NUMBER_MAX -> lenN (enc x) < 2 ^ 31 ->
  (forall g c, assoc tag fs = Some (g, c) -> c_field_wty g c <> vwty x) ->
  c_deser (CStruct fs) (enc_tagged tag x (enc x) ++ rest) = c_deser (CStruct fs) rest /\
  warns (CStruct fs) p (enc_tagged tag x (enc x) ++ rest) =
    match assoc tag fs with Some (g, c) => [(c_field_wty g c, p ++ [tag], vwty x)] | None => [] end ++ warns (CStruct fs) p rest.
Proof.
  intros fs xs tag x rest p N Ht L Fo. pose proof (fun ys => step_foreign fs ys tag x rest Ht L Fo) as St.
  assert (W : field_warns (warners p fs) p (enc_tagged tag x (enc x) ++ rest) = match assoc tag fs with Some (g, c) => [(c_field_wty g c, p ++ [tag], vwty x)] | None => [] end).
  { unfold field_warns, enc_tagged. rewrite <- app_assoc, c_key_num, assoc_warners by lia. unfold delimited.
    assert (A : match assoc tag fs with Some (g, c) => wtype_eqb (vwty x) (c_field_wty g c) = false | None => True end).
    { destruct (assoc tag fs) as [[g c]|]; [|exact I]. apply wtype_eqb_neq. now apply Fo. }
    clear - A L. destruct (vwty x).
    - destruct (assoc tag fs) as [[g c]|]; [|reflexivity]. now rewrite A.
    - rewrite <- app_assoc, c_nested_spec by exact L. destruct (assoc tag fs) as [[g c]|]; [|reflexivity]. now rewrite A. }
  pose proof (enc_tagged_nonempty tag x (enc x)) as Ne.
  rewrite !c_deser_struct, !warns_struct, N. cbn [bind]. unfold crun, run_warns.
  destruct (enc_tagged tag x (enc x)) as [|b bs]; [congruence|]. specialize (St xs). cbn [app length] in *. cbn [cloop loop_warns]. rewrite St, W. cbn [bind]. split.
  - rewrite (loop_enough_reads _ (field_shorter fs) (length (bs ++ rest)) (length rest)) by (rewrite ?app_length; lia). reflexivity.
  - f_equal. apply loop_enough_warns; [apply field_shorter|rewrite app_length; lia|lia].
Qed.
Print Assumptions c93_ignored.

(** With a type parameter in the place of a string, a client with the class of the server's type drops what the server writes, and the
    line it writes about it shows a wire type that no string has. *)
Theorem c93_parameter_refuted : exists t c v p, ty_ok t = true /\ cls t c = true /\ wt t v = true /\ c_carried v = true /\ lenN (enc v) < 2 ^ 31 /\
  warns c p (enc v) = [(Varint, p ++ [1], Sized)] /\ wty TStr = Sized.
Proof.
  exists tNamed, cNamed, (VStruct true (Some rt_default) [(fst_ 0, VInt U32 7); (fpl 1, VStr [104; 105])]), []. vm_compute. repeat split.
Qed.
Print Assumptions c93_parameter_refuted.

(** ** Lines of a log and of a snapshot *)

Lemma varint_more bs x : forall o v n r, c_varint bs o v = Ok (n, r) -> c_varint (bs ++ x) o v = Ok (n, r ++ x).
Proof.
  induction bs as [|b bs IH]; intros o v n r H; [discriminate H|]. cbn [c_varint app] in *. destruct (N.land b 128 =? 0); [|now apply IH]. injection H as <- <-. reflexivity.
Qed.
Lemma split_more {A} (l x : list A) : forall n a b, n <= lenN l -> splitN n l = (a, b) -> splitN n (l ++ x) = (a, b ++ x).
Proof.
  intros n a b L H. pose proof (splitN_exact l n L) as E. rewrite H in E. cbn [fst] in E. apply splitN_concat in H. subst l n. rewrite <- app_assoc. apply splitN_app.
Qed.
Lemma nested_more bs x sub r : c_nested bs = Ok (sub, r) -> c_nested (bs ++ x) = Ok (sub, r ++ x).
Proof.
  unfold c_nested, c_unsigned. destruct (c_varint bs 0 0) as [[n r0]|e| |] eqn:E; cbn [bind]; try discriminate. rewrite (varint_more _ x _ _ _ _ E). cbn [bind].
  destruct (2 ^ 31 <=? n mod 2 ^ 32); [discriminate|]. cbn [orb]. destruct (N.ltb_spec (lenN r0) (n mod 2 ^ 32)) as [L|L]; [discriminate|]. intros H. injection H as H.
  rewrite (proj2 (N.ltb_ge (lenN (r0 ++ x)) (n mod 2 ^ 32))) by (unfold lenN in *; rewrite app_length; lia). now rewrite (split_more _ x _ _ _ L H).
Qed.
Lemma item_more t l bs l' r x : c_wty t = Sized -> c_item_step t (c_deser t) l bs = Ok (l', r) -> c_item_step t (c_deser t) l (bs ++ x) = Ok (l', r ++ x).
Proof.
  unfold c_item_step, c_value. intros -> H. destruct (c_nested bs) as [[sub r0]|e| |] eqn:E; cbn [bind] in H; try discriminate H. rewrite (nested_more _ x _ _ E). cbn [bind].
  destruct (c_deser t sub) as [[v r1]|e| |]; cbn [bind] in *; try discriminate H. injection H as <- <-. reflexivity.
Qed.
Lemma item_warns_more t ct p l bs l' r x : c_wty t = Sized -> c_item_step t (c_deser t) l bs = Ok (l', r) -> item_warns t ct p l (bs ++ x) = item_warns t ct p l bs.
Proof.
  unfold c_item_step, c_value, item_warns, value_warns. intros -> H. destruct (c_nested bs) as [[sub r0]|e| |] eqn:E; cbn [bind] in H; try discriminate H.
  now rewrite (nested_more _ x _ _ E).
Qed.
Lemma item_shorter t l bs l' r : c_wty t = Sized -> c_item_step t (c_deser t) l bs = Ok (l', r) -> (length r < length bs)%nat.
Proof.
  unfold c_item_step, c_value. intros -> H. destruct (c_nested bs) as [[sub r0]|e| |] eqn:E; cbn [bind] in H; try discriminate H. apply c_nested_len in E.
  destruct (c_deser t sub) as [[v r1]|e| |]; cbn [bind] in *; try discriminate H. injection H as _ <-. lia.
Qed.
Lemma items_more t ct p x : c_wty t = Sized -> forall f bs l l', (length bs <= f)%nat -> cloop f (c_item_step t (c_deser t)) l bs = Ok l' ->
  loop_warns (f + length x) (c_item_step t (c_deser t)) (item_warns t ct p) l (bs ++ x) =
  loop_warns f (c_item_step t (c_deser t)) (item_warns t ct p) l bs ++ loop_warns (length x) (c_item_step t (c_deser t)) (item_warns t ct p) l' x.
Proof.
  intros W. pose proof (fun s bs s' r => item_shorter t s bs s' r W) as Sh.
  induction f as [|f IH]; intros [|b bs] l l' L H; cbn [length] in L; try lia.
  - injection H as <-. reflexivity.
  - injection H as <-. cbn [app]. apply loop_enough_warns; [exact Sh|lia|lia].
  - cbn [cloop] in H. destruct (c_item_step t (c_deser t) l (b :: bs)) as [[l1 r]|e| |] eqn:E; cbn [bind] in H; try discriminate H.
    cbn [app plus loop_warns]. change (b :: bs ++ x) with ((b :: bs) ++ x). rewrite (item_more _ _ _ _ _ x W E), (item_warns_more _ ct p _ _ _ _ x W E), E, <- app_assoc. f_equal.
    apply IH; [|exact H]. apply Sh in E. cbn [length] in E. lia.
Qed.
Lemma one_field fs xs p tag g t sub : c_new_fields fs = Ok xs -> assoc tag fs = Some (g, t) -> c_field_wty g t = Sized -> tag <= FIELD_NUMBER_MAX -> lenN sub < 2 ^ 31 ->
  warns (CStruct fs) p (leb128 (tag_num tag Sized) ++ leb128 (lenN sub) ++ sub) = warns t (p ++ [tag]) sub.
Proof.
  intros N A W Ht L. rewrite warns_struct, N. unfold run_warns. set (bs := leb128 (tag_num tag Sized) ++ leb128 (lenN sub) ++ sub).
  assert (K : c_key bs = Ok (tag, Sized, leb128 (lenN sub) ++ sub)) by (apply c_key_num; lia).
  assert (Ne : c_nested (leb128 (lenN sub) ++ sub) = Ok (sub, [])) by (rewrite <- (app_nil_r sub) at 2; now apply c_nested_spec).
  assert (F : field_warns (warners p fs) p bs = warns t (p ++ [tag]) sub) by (unfold field_warns; rewrite K, Ne, assoc_warners, A, W; reflexivity).
  assert (R : forall ys, match c_struct_step (c_readers fs) ys bs with Ok (_, r) => r = [] | _ => True end).
  { intros ys. unfold c_struct_step. rewrite K. cbn [bind]. rewrite Ne. cbn [bind]. rewrite assoc_readers, A. cbn. rewrite W. cbn.
    destruct (c_deser t sub) as [[v r]|e| |]; cbn; exact I || reflexivity. }
  clearbody bs. destruct bs as [|b bs]; [discriminate K|]. cbn [length loop_warns]. rewrite F. specialize (R xs).
  destruct (c_struct_step (c_readers fs) xs (b :: bs)) as [[ys r]|e| |]; try apply app_nil_r. subst r. destruct (length bs); apply app_nil_r.
Qed.

(** What a client writes about the bytes of an entry is what it writes about the same bytes in a snapshot: a pushed item is reported
    under the number that it has in the list, a field, a variant and an entry of a map as if they came in a whole value. *)
Theorem c93_log : forall p sub, lenN sub < 2 ^ 31 ->
  (forall t bs l, c_wty t = Sized -> c_deser (CList t) bs = Ok (CVList l, []) ->
    warns (CList t) p (bs ++ leb128 (lenN sub) ++ sub) = warns (CList t) p bs ++ handle_warns (CList t) (EListPush [] sub) (CVList l) p) /\
  (forall t es k, c_wty t = Sized -> k <= FIELD_NUMBER_MAX ->
    warns (CMap t) p (leb128 (tag_num k Sized) ++ leb128 (lenN sub) ++ sub) = handle_warns (CMap t) (EUpdate [k] sub) (CVMap es) p) /\
  (forall fs d tag g t xs, c_new_fields fs = Ok d -> assoc tag fs = Some (g, t) -> c_field_wty g t = Sized -> tag <= FIELD_NUMBER_MAX ->
    warns (CStruct fs) p (leb128 (tag_num tag Sized) ++ leb128 (lenN sub) ++ sub) = handle_warns (CStruct fs) (EUpdate [tag] sub) (CVStruct xs) p) /\
  (forall vs d tag old xs, c_new (CEnum vs) = Ok d -> tag < 2 ^ 32 ->
    warns (CEnum vs) p (leb128 tag ++ sub) = handle_warns (CEnum vs) (EUpdate [tag] sub) (CVEnum old xs) p).
Proof.
  intros p sub L. repeat split.
  - intros t bs l W H. cbn [c_deser] in H. unfold crun in H. destruct (cloop (length bs) (c_item_step t (c_deser t)) [] bs) as [l0|e| |] eqn:E; cbn [bind] in H; try discriminate H.
    injection H as <-. set (x := leb128 (lenN sub) ++ sub).
    assert (Ne : c_nested x = Ok (sub, [])) by (unfold x; rewrite <- (app_nil_r sub) at 2; now apply c_nested_spec).
    change (run_warns (c_item_step t (c_deser t)) (item_warns t (warns t) p) [] (bs ++ x) =
      run_warns (c_item_step t (c_deser t)) (item_warns t (warns t) p) [] bs ++ warns t (p ++ [lenN l0]) sub).
    unfold run_warns. rewrite app_length, (items_more t (warns t) p x W _ _ _ _ (le_n _) E). f_equal.
    clearbody x. destruct x as [|b x]; [discriminate Ne|]. cbn [length loop_warns]. unfold item_warns at 1, value_warns, c_item_step at 1, c_value. rewrite W, Ne. cbn [bind].
    destruct (c_deser t sub) as [[v r]|e| |]; cbn [bind]; try apply app_nil_r. destruct (length x); apply app_nil_r.
  - intros t es k W Hk. set (x := leb128 (lenN sub) ++ sub).
    assert (Ne : c_nested x = Ok (sub, [])) by (unfold x; rewrite <- (app_nil_r sub) at 2; now apply c_nested_spec).
    assert (K : c_key (leb128 (tag_num k Sized) ++ x) = Ok (k, Sized, x)) by (apply c_key_num; lia).
    change (run_warns (c_map_step t (c_deser t)) (entry_of_map_warns t (warns t) p) [] (leb128 (tag_num k Sized) ++ x) = warns t (p ++ [k]) sub). unfold run_warns.
    set (bs := leb128 (tag_num k Sized) ++ x) in *. clearbody bs. destruct bs as [|b bs]; [discriminate K|]. cbn [length loop_warns].
    unfold entry_of_map_warns at 1, value_warns, c_map_step at 1, c_value. rewrite K. cbn [bind]. rewrite W, Ne. cbn [bind].
    destruct (c_deser t sub) as [[v r]|e| |]; cbn [bind]; try apply app_nil_r. destruct (length bs); apply app_nil_r.
  - intros fs d tag g t xs N A W Ht. rewrite (one_field fs d p tag g t sub N A W Ht L). cbn. now rewrite A.
  - intros vs d tag old xs N Ht. rewrite warns_enum, N. unfold c_int. rewrite c_unsigned_leb by lia. cbn [bind isigned ibits].
    rewrite N.mod_small, N2Z.id by exact Ht. reflexivity.
Qed.
Print Assumptions c93_log.

(** ** The text *)

From Verif Require Import Gen CsRead GenLex GenParse.
From Coq Require Import String Ascii.
Local Open Scope string_scope.
Local Open Scope list_scope.

(** The text begins with a character that is not part of a number. *)
Definition apart (s : string) : Prop := match s with String c _ => id_char c = false | EmptyString => False end.
Lemma words_split a : forall b x y, all_chars id_char a = true -> all_chars id_char b = true -> apart x -> apart y -> (a ++ x)%string = (b ++ y)%string -> a = b /\ x = y.
Proof.
  induction a as [|c a IH]; intros [|d b] x y A B X Y E; cbn [String.append all_chars] in *.
  - now split.
  - subst x. cbn [apart] in X. apply andb_prop in B. destruct B as [B _]. congruence.
  - subst y. cbn [apart] in Y. apply andb_prop in A. destruct A as [A _]. congruence.
  - injection E as -> E. apply andb_prop in A, B. destruct (IH b x y) as [-> ->]; tauto.
Qed.
Lemma dec_word n : all_chars id_char (dec n) = true.
Proof. pose proof (word_dec n) as W. unfold word in W. destruct (dec n); [discriminate W|exact W]. Qed.
Lemma string_assoc (a b c : string) : ((a ++ b) ++ c = a ++ (b ++ c))%string.
Proof. induction a as [|x a IH]; [reflexivity|]. cbn. now rewrite IH. Qed.
Lemma path_apart p k : apart (path_text p ++ String "," k)%string.
Proof. destruct p; reflexivity. Qed.
Lemma path_split p : forall p' k k', (path_text p ++ String "," k = path_text p' ++ String "," k')%string -> p = p' /\ k = k'.
Proof.
  induction p as [|n p IH]; intros [|n' p'] k k' E; cbn [path_text] in E.
  - now injection E as ->.
  - discriminate E.
  - discriminate E.
  - cbn [String.append] in E. injection E as E. rewrite !string_assoc in E.
    apply words_split in E; [|apply dec_word|apply dec_word|apply path_apart|apply path_apart]. destruct E as [D E]. apply IH in E. destruct E as [-> ->].
    split; [|reflexivity]. f_equal. pose proof (f_equal number D) as X. rewrite !number_dec in X. congruence.
Qed.

(** From a line one can tell the field and both wire types. *)
Theorem c93_text : forall x y, warning_text x = warning_text y -> x = y.
Proof.
  intros [[e p] g] [[e' p'] g'] E. unfold warning_text in E.
  assert (G : forall w w' k k', (wtype_text w ++ String " " k = wtype_text w' ++ String " " k')%string -> w = w' /\ k = k').
  { clear. intros [|] [|] k k' E; try discriminate E; injection E as ->; now split. }
  repeat match type of E with (String _ _ ++ _)%string = _ => cbn [String.append] in E; injection E as E end.
  apply G in E. destruct E as [-> E].
  repeat match type of E with String _ _ = _ => injection E as E end. apply path_split in E. destruct E as [-> E].
  destruct g, g'; try discriminate E; reflexivity.
Qed.
Print Assumptions c93_text.

(** A struct with a number, a list of structs and an enum; the server has made the number of the second item a string and has added a
    field to it, and the payload of the variant is a number now.  The last line is written before the reader runs out of bytes. *)
Definition cItem : cty := CStruct [(0, (false, CInt U32)); (1, (false, CBool))].
Definition cDoc : cty := CStruct [(0, (false, CInt U32)); (1, (false, CList cItem)); (2, (false, CEnum [(0, []); (3, [(0, (false, CStr))])]))].
Example c93_case :
  let bs := [0; 7; 10; 11; 2; 0; 5; 7; 2; 1; 104; 8; 1; 16; 1; 18; 3; 3; 0; 9; 8] in
  map warning_text (warns cDoc [] bs) =
    ["Expected wire type Varint for path /1/1/0, got Sized."; "Expected wire type Sized for path /2/3/0, got Varint."; "Expected wire type Sized for path /1, got Varint."]%string /\
  c_deser cDoc bs = Panic /\
  map warning_text (warns cItem [4; 12] [2; 1; 104; 2; 1]) = ["Expected wire type Varint for path /4/12/0, got Sized."]%string /\
  expects [1; 7; 0] cDoc = Some Varint /\
  map warning_text (replay_warns cDoc (CVStruct [(0, CVInt 0); (1, CVList []); (2, CVEnum 0 [])]) [] (entry_wire (EListPush [1] [2; 1; 104]))) =
    ["Expected wire type Varint for path /1/0/0, got Sized."]%string.
Proof. vm_compute. repeat split. Qed.
