(** Writers that fail: what is sent, and what happens to the size caches. *)
From Verif Require Import Base Varint WireFmt Utf8 Types Ser Spec ValInd VarintProofs WireProofs SerProofs Sink.

(** How many bytes a writer takes before it fails ([None]: it does not), and how it fails. *)
Fixpoint room_of (ev : list wevent) : option nat :=
  match ev with
  | [] => None
  | Takes n :: ev => option_map (fun c => S n + c)%nat (room_of ev)
  | Pauses :: ev => room_of ev
  | Full :: _ | Breaks _ :: _ => Some O
  end.
Fixpoint fault_of (ev : list wevent) : option werr :=
  match ev with
  | [] => None
  | Takes _ :: ev | Pauses :: ev => fault_of ev
  | Full :: _ => Some WriteZero
  | Breaks x :: _ => Some (WriteErr x)
  end.
Definition room (s : sink) : option nat := room_of (script s).
Definition fault (s : sink) : option werr := fault_of (script s).
Definition fits (s : sink) (n : nat) : Prop := match room s with Some c => (n <= c)%nat | None => True end.

Lemma room_fault ev c : room_of ev = Some c -> exists x, fault_of ev = Some x.
Proof.
  revert c. induction ev as [|[n| | |x] ev IH]; intros c E; cbn in *; try discriminate E; eauto.
  destruct (room_of ev); [eauto|discriminate E].
Qed.

(** The outcome [r] of writing [bs]. *)
Definition outcome (s : sink) (bs : bytes) (r : resW unit) (s' : sink) : Prop :=
  (fits s (length bs) /\ r = OkW tt /\ sent s' = sent s ++ bs /\
     room s' = option_map (fun c => c - length bs)%nat (room s) /\ fault s' = fault s) \/
  (exists c x, room s = Some c /\ (c < length bs)%nat /\ fault s = Some x /\ r = IoW x /\ sent s' = sent s ++ firstn c bs).

Lemma outcome_nil s : outcome s [] (OkW tt) s.
Proof.
  left. split; [unfold fits; destruct (room s); cbn; auto; lia|]. split; [reflexivity|]. split; [now rewrite app_nil_r|].
  split; [|reflexivity]. destruct (room s); cbn; [f_equal; lia|reflexivity].
Qed.
Lemma outcome_app s a s1 b r s2 : outcome s a (OkW tt) s1 -> outcome s1 b r s2 -> outcome s (a ++ b) r s2.
Proof.
  intros [(F & _ & E & R & Ff)|(c & x & _ & _ & _ & H & _)]; [|discriminate H].
  unfold outcome, fits in *. rewrite R, Ff, E. intros [(F2 & -> & E2 & R2 & Ff2)|(c & x & R2 & L & Fx & -> & E2)].
  - left. rewrite R2, E2, Ff2, app_length, app_assoc. split.
    + destruct (room s) as [c|]; cbn in *; [lia|exact I].
    + repeat split. destruct (room s) as [c|]; cbn; [f_equal; lia|reflexivity].
  - right. destruct (room s) as [c0|]; cbn in R2; [|discriminate R2]. injection R2 as <-.
    exists c0, x. rewrite app_length. repeat split; auto; [lia|]. rewrite E2, <- app_assoc. f_equal.
    rewrite firstn_app. f_equal. now rewrite firstn_all2 by lia.
Qed.
Lemma outcome_io s a x s1 b : outcome s a (IoW x) s1 -> outcome s (a ++ b) (IoW x) s1.
Proof.
  intros [(_ & H & _)|(c & y & R & L & Fx & H & E)]; [discriminate H|]. injection H as <-.
  right. exists c, x. rewrite app_length. repeat split; auto; [lia|]. rewrite E. f_equal. rewrite firstn_app.
  replace (c - length a)%nat with O by lia. cbn. now rewrite app_nil_r.
Qed.
Lemma outcome_cases s bs r s' : outcome s bs r s' -> r = OkW tt \/ exists x, r = IoW x.
Proof. intros [(_ & -> & _)|(c & x & _ & _ & _ & -> & _)]; eauto. Qed.
(** Taking back what a skipped event changes. *)
Lemma outcome_shift ev t bs r s' : outcome (mkSink ev t) bs r s' -> outcome (mkSink (Pauses :: ev) t) bs r s'.
Proof. intros H. exact H. Qed.

Lemma all_loop_outcome : forall f buf s, (length buf + length (script s) <= f)%nat ->
  outcome s buf (fst (all_loop f buf s)) (snd (all_loop f buf s)).
Proof.
  induction f as [|f IH]; intros buf [ev t] L; (destruct buf as [|b buf]; [apply outcome_nil|]); [cbn in L; lia|].
  cbn [all_loop]. unfold sink_write. cbn [script sent]. destruct ev as [|[n| | |x] ev].
  - cbn [length]. destruct f as [|f']; [|]; rewrite ?skipn_all; cbn [skipn].
    + assert (K : skipn (length buf) buf = []) by apply skipn_all. rewrite K. cbn.
      left. cbn. repeat split; reflexivity.
    + rewrite skipn_all. cbn. left. cbn. repeat split; reflexivity.
  - assert (Kp : (0 < Nat.min (S n) (length (b :: buf)))%nat) by (cbn [length]; lia).
    revert Kp L. generalize (b :: buf). intros buf' Kp L.
    remember (Nat.min (S n) (length buf')) as k eqn:Dk. destruct k as [|k']; [lia|]. remember (S k') as k eqn:Ek.
    assert (H1 : outcome (mkSink (Takes n :: ev) t) (firstn k buf') (OkW tt)
                   (mkSink (if Nat.ltb k (S n) then Takes (n - k) :: ev else ev) (t ++ firstn k buf'))).
    { left. unfold fits, room, fault. cbn [script sent room_of fault_of]. rewrite firstn_length_le by lia.
      split; [destruct (room_of ev); cbn; [lia|exact I]|]. repeat split.
      - destruct (Nat.ltb_spec k (S n)) as [Lt|Ge]; cbn [room_of]; destruct (room_of ev); cbn [option_map]; try reflexivity; f_equal; lia.
      - destruct (Nat.ltb k (S n)); reflexivity. }
    specialize (IH (skipn k buf') (mkSink (if Nat.ltb k (S n) then Takes (n - k) :: ev else ev) (t ++ firstn k buf'))).
    rewrite <- (firstn_skipn k buf') at 1. eapply outcome_app; [exact H1|]. apply IH. rewrite skipn_length. cbn [script length] in L |- *.
    destruct (Nat.ltb_spec k (S n)) as [Lt|Ge]; cbn [length]; lia.
  - apply outcome_shift. apply IH. cbn in *. lia.
  - right. exists O, WriteZero. cbn. rewrite app_nil_r. repeat split; auto. lia.
  - right. exists O, (WriteErr x). cbn. rewrite app_nil_r. repeat split; auto. lia.
Qed.

(** [p] writes [bs] and leaves the caches as they are. *)
Definition delivers (bs : bytes) (p : W unit) (h : store) : Prop :=
  forall s, exists r h' s', p h s = (r, h', s') /\ (forall b, h' b = h b) /\ outcome s bs r s'.

Lemma delivers_nil h : delivers [] (retW tt) h.
Proof. intros s. exists (OkW tt), h, s. split; [reflexivity|]. split; [reflexivity|apply outcome_nil]. Qed.
Lemma delivers_app a b p q h : delivers a p h -> (forall h', (forall c, h' c = h c) -> delivers b q h') ->
  delivers (a ++ b) (put _ <- p; q) h.
Proof.
  intros Hp Hq s. destruct (Hp s) as (r & h1 & s1 & E & S & O). unfold bindW. rewrite E.
  destruct (outcome_cases _ _ _ _ O) as [->|[x ->]].
  - destruct (Hq h1 S s1) as (r2 & h2 & s2 & E2 & S2 & O2). rewrite E2. exists r2, h2, s2. split; [reflexivity|].
    split; [intros c; now rewrite S2|]. now apply (outcome_app s a s1).
  - exists (IoW x), h1, s1. split; [reflexivity|]. split; [exact S|]. now apply outcome_io.
Qed.
Lemma delivers_caches {A} (f : store -> res (A * store)) (k : A -> W unit) bs h x h1 :
  f h = Ok (x, h1) -> (forall c, h1 c = h c) -> delivers bs (k x) h1 -> delivers bs (put y <- cachesW f; k y) h.
Proof.
  intros E S D s. destruct (D s) as (r & h2 & s2 & E2 & S2 & O). unfold bindW, cachesW. rewrite E, E2. exists r, h2, s2.
  split; [reflexivity|]. split; [intros c; now rewrite S2|exact O].
Qed.
Lemma delivers_pure {A} (x : res A) (k : A -> W unit) bs h a : x = Ok a -> delivers bs (k a) h -> delivers bs (put y <- pureW x; k y) h.
Proof. intros -> D. apply (delivers_caches _ k bs h a h); auto. Qed.
Lemma delivers_ret {A} (x : A) (k : A -> W unit) bs h : delivers bs (k x) h -> delivers bs (put y <- retW x; k y) h.
Proof. intros D. exact D. Qed.

Lemma write_all_delivers bs h : delivers bs (write_all bs) h.
Proof.
  intros s. unfold write_all. pose proof (all_loop_outcome _ bs s (Nat.le_refl _)) as O.
  destruct (all_loop (length bs + length (script s)) bs s) as [r s']. exists r, h, s'. auto.
Qed.
Lemma write_each_delivers : forall bs h, delivers bs (write_each bs) h.
Proof.
  induction bs as [|b bs IH]; intros h; [apply delivers_nil|]. cbn [write_each].
  change (b :: bs) with ([b] ++ bs). apply delivers_app; [apply write_all_delivers|]. intros; apply IH.
Qed.

Lemma ser_nestedW_spec m fn om a v ser h :
  ser_ok v -> lenN (slot_enc ((fn, om), v)) < 2 ^ 32 ->
  (match fn with Some f => f <= FIELD_NUMBER_MAX | None => True end) ->
  all_ok a v h -> (forall h, all_ok a v h -> delivers (enc v) ser h) ->
  delivers (slot_enc ((fn, om), v)) (ser_nestedW m fn om a v ser) h.
Proof.
  intros Ok0 Hlen Hfn A Hser. pose proof (lenN_slot fn om v Hlen) as Hl. unfold ser_nestedW.
  assert (E0 : exists h1, (if is_some fn && om then omissible_cached m a v h else Ok (false, h))
               = Ok (is_some fn && om && left_out v (enc v), h1) /\ forall b, h1 b = h b).
  { destruct (is_some fn && om); [|exists h; split; reflexivity]. cbn [andb].
    destruct (cached_size_spec m a v h Ok0 Hl A) as [h1 [E1 S1]].
    unfold omissible_cached. destruct v; try (exists h; split; reflexivity);
      rewrite E1; exists h1; (split; [cbn [bind left_out]|exact S1]);
      match goal with |- context [lenN ?e] => destruct e; reflexivity end. }
  destruct E0 as [h1 [E1 S1]].
  assert (K : forall bs k, delivers bs (k (is_some fn && om && left_out v (enc v))) h1 ->
    delivers bs (put omit <- if is_some fn && om then cachesW (omissible_cached m a v) else retW false; k omit) h).
  { intros bs k D. destruct (is_some fn && om).
    - eapply delivers_caches; eauto.
    - cbn [andb] in *. inversion E1; subst h1. exact D. }
  apply K. clear K. cbn [slot_enc]. destruct (is_some fn && om && left_out v (enc v)); [apply delivers_nil|].
  assert (A1 : all_ok a v h1) by now apply (all_ok_ext a v h).
  replace (match fn with Some fn => enc_tagged fn v (enc v) | None => delimited v (enc v) end)
    with (match fn with Some fn => leb128 (tag_num fn (vwty v)) | None => [] end ++
          match vwty v with Varint => [] | Sized => leb128 (lenN (enc v)) end ++ enc v)
    by (unfold enc_tagged, delimited; destruct fn, (vwty v); reflexivity).
  apply delivers_app.
  - destruct fn as [fn|]; [|apply delivers_nil]. eapply delivers_pure; [now apply mk_tag_spec|].
    eapply delivers_pure; [apply uv_serialize_spec; [lia|now apply tag_num_bound]|]. apply write_each_delivers.
  - intros h2 S2. assert (A2 : all_ok a v h2) by now apply (all_ok_ext a v h1). apply delivers_app.
    + destruct (vwty v); [apply delivers_nil|]. destruct (cached_size_spec m a v h2 Ok0 Hl A2) as [h3 [E3 S3]].
      eapply delivers_caches; [exact E3|exact S3|]. eapply delivers_pure; [apply uv_serialize_spec; lia|]. apply write_each_delivers.
    + intros h3 S3. apply Hser. now apply (all_ok_ext a v h2).
Qed.

Fixpoint slotsW (m : mode) (a : addr) (i : nat) (sl : list slot) : W unit :=
  match sl with
  | [] => retW tt
  | ((fn, om), x) :: sl' =>
      put _ <- ser_nestedW m fn om (i :: a) x (ser_cachedW m (i :: a) x);
      slotsW m a (S i) sl'
  end.

Lemma bindW_ext {A B} (x : W A) (f g : A -> W B) h s : (forall a h s, f a h s = g a h s) -> bindW x f h s = bindW x g h s.
Proof. intros E. unfold bindW. destruct (x h s) as [[[a|e|e| |] h'] s']; auto. Qed.

Lemma slotsW_eq m a v h s : composite v = true -> (forall x, v <> VOpt (Some x)) ->
  ser_cachedW m a v h s =
  match v with
  | VEnum tag _ _ _ => (put bs <- pureW (uv_serialize 32 tag); put _ <- write_each bs; slotsW m a O (slots v)) h s
  | _ => slotsW m a O (slots v) h s
  end.
Proof.
  destruct v as [| | | |[x|]|l|l|l|l| |c r fs|tag c r fs|r l|r es]; intros H NS; try discriminate H;
    try (exfalso; now eapply NS); cbn [ser_cachedW slots]; try reflexivity.
  all: try (apply bindW_ext; intros bs h1 s1; apply bindW_ext; intros u h2 s2).
  all: match goal with
       | |- ?F O ?l ?h ?s = slotsW ?m ?a O (?g ?l) ?h ?s =>
           enough (G : forall l i h s, F i l h s = slotsW m a i (g l) h s) by apply G
       end.
  all: let l' := fresh "l" in let IH := fresh "IH" in
       intros l'; induction l' as [|x' l' IH]; intros i h' s'; [reflexivity|];
       try destruct x' as [y1 y2]; cbn; repeat (apply bindW_ext; intros ? ? ?); apply IH.
Qed.

Lemma slotsW_spec m a : forall sl i h,
  (forall s, In s sl -> fn_ok s /\ ser_ok (snd s) /\
     forall b h, lenN (enc (snd s)) < 2 ^ 32 -> kids_ok b (snd s) h -> delivers (enc (snd s)) (ser_cachedW m b (snd s)) h) ->
  lenN (flat_map slot_enc sl) < 2 ^ 32 ->
  (forall j s, nth_error sl j = Some s -> all_ok ((i + j)%nat :: a) (snd s) h) ->
  delivers (flat_map slot_enc sl) (slotsW m a i sl) h.
Proof.
  induction sl as [|[[fn om] x] sl IH]; intros i h Hs Hlen A; [apply delivers_nil|].
  cbn [flat_map slotsW] in *. rewrite lenN_app in Hlen.
  destruct (Hs ((fn, om), x) (or_introl eq_refl)) as [Hfn [Ho Hx]]. cbn [fn_ok fst snd] in Hfn, Ho, Hx.
  apply delivers_app.
  - apply ser_nestedW_spec; [exact Ho|lia|exact Hfn| |].
    + specialize (A O _ eq_refl). now rewrite Nat.add_0_r in A.
    + intros h0 A0. apply Hx; [apply (lenN_slot fn om x); lia|now apply all_ok_kids].
  - intros h1 S1. apply IH; [intros s Hi; apply Hs; now right|lia|].
    intros j s E. apply (all_ok_ext _ _ h); [|exact S1]. replace (S i + j)%nat with (i + S j)%nat by lia. now apply A.
Qed.

Lemma ser_cachedW_spec v : ser_ok v -> lenN (enc v) < 2 ^ 32 -> forall m a h, kids_ok a v h ->
  delivers (enc v) (ser_cachedW m a v) h.
Proof.
  induction v as [v L|v IH|v C IH] using val_slots_ind; intros Ok0 Hlen m a h K.
  - inversion Ok0 as [k z R|b|s|s|w O'|w C' _ _]; subst; try discriminate L; cbn [ser_cachedW enc].
    + eapply delivers_pure; [now apply int_serialize_spec|]. apply write_each_delivers.
    + apply write_all_delivers.
    + apply write_all_delivers.
    + apply write_all_delivers.
    + destruct v; discriminate.
  - inversion Ok0 as [| | | |w O'|w C' _ _]; subst; [|discriminate C']. cbn [ser_cachedW enc]. now apply IH.
  - inversion Ok0 as [| | | | |w C' T Hs]; subst; try discriminate C.
    assert (U : unbox v = v) by (destruct v; try reflexivity; discriminate C).
    assert (Hsl : forall s, In s (slots v) -> fn_ok s /\ ser_ok (snd s) /\
       forall b h, lenN (enc (snd s)) < 2 ^ 32 -> kids_ok b (snd s) h -> delivers (enc (snd s)) (ser_cachedW m b (snd s)) h).
    { intros s Hi. destruct (Hs s Hi) as [Hf Ho]. split; [exact Hf|]. split; [exact Ho|]. intros b h0 Hl Kb.
      rewrite Forall_forall in IH. now apply IH. }
    rewrite enc_slots in Hlen by exact C. rewrite lenN_app in Hlen.
    assert (A : forall j s, nth_error (slots v) j = Some s -> all_ok (j :: a) (snd s) h).
    { intros j s E b y H Cy. apply K; [|exact Cy]. exists j, s. now rewrite U. }
    assert (D : (exists x, v = VOpt (Some x)) \/ forall x, v <> VOpt (Some x)).
    { destruct v as [| | | |[x|]| | | | | | | | |]; try (right; congruence). left; eauto. }
    destruct D as [[x ->]|NS].
    + destruct (Hsl (islot x) (or_introl eq_refl)) as [_ [Ho Hx]]. cbn [islot snd] in Hx, Ho.
      cbn [ser_cachedW]. cbn [slots flat_map hdr app] in Hlen. rewrite app_nil_r in Hlen.
      apply (ser_nestedW_spec m None false (O :: a) x (ser_cachedW m (O :: a) x) h Ho Hlen I).
      * exact (A O (islot x) eq_refl).
      * intros h0 A0. apply Hx; [apply (lenN_slot None false x); exact Hlen|now apply all_ok_kids].
    + pose proof (slotsW_spec m a (slots v) O h Hsl ltac:(lia) A) as Hd. rewrite (enc_slots v C).
      assert (G : delivers (hdr v ++ flat_map slot_enc (slots v))
                    (match v with
                     | VEnum tag _ _ _ => put bs <- pureW (uv_serialize 32 tag); put _ <- write_each bs; slotsW m a O (slots v)
                     | _ => slotsW m a O (slots v)
                     end) h).
      { destruct v; try exact Hd. eapply delivers_pure; [apply uv_serialize_spec; [lia|exact T]|].
        apply delivers_app; [apply write_each_delivers|]. intros h' S'. apply slotsW_spec; [exact Hsl|lia|].
        intros j s' E. apply (all_ok_ext _ _ h); [now apply A|exact S']. }
      intros s. destruct (G s) as (r & h' & s' & E & R). exists r, h', s'. split; [|exact R].
      rewrite slotsW_eq by assumption. destruct v; exact E.
Qed.

Lemma serializeW_spec v : ser_ok v -> lenN (enc v) < 2 ^ 32 -> forall m h s,
  exists r h' s', steit_serializeW m v h s = (r, h', s') /\ all_ok [] v h' /\ frame (at_addr [] v) h h' /\ outcome s (enc v) r s'.
Proof.
  intros Ok0 Hlen m h s. destruct (cache_size_spec v Ok0 Hlen m [] h) as [h1 [E1 [A1 F1]]].
  destruct (ser_cachedW_spec v Ok0 Hlen m [] h1 (all_ok_kids _ _ _ A1) s) as (r & h2 & s2 & E2 & S2 & O2).
  exists r, h2, s2. unfold steit_serializeW, bindW, cachesW. rewrite E1. split; [exact E2|].
  split; [now apply (all_ok_ext _ _ h1)|]. split; [|exact O2]. intros b N. rewrite S2. now apply F1.
Qed.
Lemma write_nestedW_spec v : ser_ok v -> lenN (enc v) < 2 ^ 32 -> lenN (delimited v (enc v)) < 2 ^ 32 -> forall m h s,
  exists r h' s', write_nestedW m v h s = (r, h', s') /\ all_ok [] v h' /\ frame (at_addr [] v) h h' /\ outcome s (delimited v (enc v)) r s'.
Proof.
  intros Ok0 Hlen Hl2 m h s. destruct (cache_size_spec v Ok0 Hlen m [] h) as [h1 [E1 [A1 F1]]].
  destruct (ser_nestedW_spec m None false [] v (ser_cachedW m [] v) h1 Ok0 Hl2 I A1) with (s := s) as (r & h2 & s2 & E2 & S2 & O2).
  { intros h0 A0. apply ser_cachedW_spec; auto. now apply all_ok_kids. }
  exists r, h2, s2. unfold write_nestedW, bindW, cachesW. rewrite E1. split; [exact E2|].
  split; [now apply (all_ok_ext _ _ h1)|]. split; [|exact O2]. intros b N. rewrite S2. now apply F1.
Qed.
