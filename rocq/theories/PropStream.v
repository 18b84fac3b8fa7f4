(** C75: decoding from a source that gives its bytes in pieces, is interrupted, or fails.

    [arriving ev] is what the source gives before it ends or fails, [failing ev] how it fails (StreamProofs.v).
    All theorems hold for every way in which [read_to_end] chooses its buffers, and whether or not [eof]
    calls again after an interruption; in the second case the source must not interrupt ([calm]). *)
From Verif Require Import Base Varint WireFmt Utf8 Types Ser Spec De Log State StateSpec ValInd VarintProofs WireProofs
  SerProofs TypeProofs EqProofs DeProofs RoundTrip LogProofs HandleProofs OpProofs KeepProofs ExecProofs Stream StreamProofs Examples.

Definition from (ev : list event) : reader := (None, Base ev).
Definition unread (r : reader) : bytes := content [] r.

Lemma from_fine o cs ev : calm o ev -> (failing ev = None -> cs = []) -> fine o cs (from ev).
Proof. intros C P. split; [exact I|exact P|exact C]. Qed.
Lemma from_content cs ev : content cs (from ev) = arriving ev ++ cs.
Proof. reflexivity. Qed.
Lemma base_content cs k ev : content cs (k, Base ev) = content [] (k, Base ev) ++ cs.
Proof. unfold content. cbn. now rewrite app_nil_r, app_assoc. Qed.
Lemma base_adv k ev y r : radv (k, Base ev) y r -> exists k' ev', r = (k', Base ev') /\ failing ev' = failing ev.
Proof. intros [z [H _]]. destruct r as [k' s]. cbn in H. inversion H; subst. eauto. Qed.

(** A source that does not fail: the outcome, the value and what is left unread are those of decoding all
    its bytes at once, however they are cut into pieces. *)
Theorem c75_pieces : forall o m t v ev, calm o ev -> failing ev = None ->
  let '(v1, c1) := merge m t v (arriving ev) in
  let '(v2, c2) := mergeF o m t v (from ev) in
  v2 = v1 /\ c1 = match c2 with
                  | OkF r => Ok (unread r) | ErrF e => Err e | PanicF => Panic | NoFuelF => NoFuel
                  | IoF _ => Ok [] (* excluded below *)
                  end /\ forall x, c2 <> IoF x.
Proof.
  intros o m t v ev C F. pose proof (merge_sim o [] m t v (from ev) (from_fine o [] ev C (fun _ => eq_refl))) as [H E].
  rewrite from_content, app_nil_r in H, E. destruct (merge m t v (arriving ev)) as [v1 c1], (mergeF o m t v (from ev)) as [v2 c2].
  cbn [fst snd] in *. assert (K : forall x, c2 <> IoF x).
  { intros x ->. destruct H as (e & _ & F' & _). cbn in F'. congruence. }
  split; [destruct E as [[x E]|E]; [now apply K in E|easy]|]. split; [|exact K].
  destruct c2 as [r|e|x| |]; cbn in H; try exact H; [apply H|now destruct (K x)].
Qed.

(** A source that fails: the outcome is its error, or everything is as if any other bytes had come where it
    fails; what decoding does never depends on them. *)
Theorem c75_fails : forall o m t v ev e, calm o ev -> failing ev = Some e ->
  match mergeF o m t v (from ev) with
  | (_, IoF x) => x = Other e
  | (v', OkF r) => failing ev = Some e /\ forall cs, merge m t v (arriving ev ++ cs) = (v', Ok (unread r ++ cs))
  | (v', ErrF x) => forall cs, merge m t v (arriving ev ++ cs) = (v', Err x)
  | (v', PanicF) => forall cs, merge m t v (arriving ev ++ cs) = (v', Panic)
  | (v', NoFuelF) => forall cs, merge m t v (arriving ev ++ cs) = (v', NoFuel)
  end.
Proof.
  intros o m t v ev e C F.
  assert (H : forall cs, simS cs (from ev) (merge m t v (arriving ev ++ cs)) (mergeF o m t v (from ev))).
  { intros cs. rewrite <- from_content. apply merge_sim. apply from_fine; [exact C|congruence]. }
  destruct (mergeF o m t v (from ev)) as [v' [r|x|x| |]]; try (split; [exact F|]); try (intros cs);
    try (specialize (H cs); destruct (merge m t v (arriving ev ++ cs)) as [v1 c1]; destruct H as [H [[x' E]|E]]; cbn in *; try discriminate E; subst v1).
  - destruct H as [-> [y A]]. destruct (base_adv _ _ _ _ A) as (k' & ev' & -> & _). unfold unread. now rewrite base_content.
  - now rewrite H.
  - destruct (H []) as [(e' & -> & F' & _) _]. cbn in F'. congruence.
  - now rewrite H.
  - now rewrite H.
Qed.

(** No value of a type that is encoded with its length is ever completed by a failure: decoding strings,
    byte strings, options, vectors, arrays, tuples, maps, lists, structs and enums from a source that fails
    never succeeds.  (From a source that just ends it may, with a part of the value: C18.) *)
Theorem c75_not_cut : forall o m t v ev e, calm o ev -> failing ev = Some e -> wty t = Sized ->
  forall v' r, mergeF o m t v (from ev) <> (v', OkF r).
Proof.
  intros o m t v ev e C F W v' r E. pose proof (c75_fails o m t v ev e C F) as H. rewrite E in H.
  destruct H as [_ H]. specialize (H [0]). pose proof (merge_suf m t) as S. rewrite W in S. apply S in H.
  now apply app_eq_nil in H.
Qed.

(** A length and as many bytes. *)
Definition framed (m : mode) (p : bytes) : Prop := exists body, uv_deserialize m 64 p = Ok (lenN body, body).

Lemma framed_app m p x : framed m p -> exists body, uv_deserialize m 64 (p ++ x) = Ok (lenN body, body ++ x) /\
  uv_deserialize m 64 p = Ok (lenN body, body).
Proof. intros [body E]. exists body. split; [now apply uv_deserialize_ext|exact E]. Qed.
Lemma framed_unique m p p' x x' : framed m p -> framed m p' -> p ++ x = p' ++ x' -> p = p' /\ x = x'.
Proof.
  intros [b E] [b' E'] H. apply (uv_deserialize_ext _ _ _ x) in E. apply (uv_deserialize_ext _ _ _ x') in E'.
  rewrite H, E' in E. injection E as L B.
  assert (x = x').
  { assert (Lb : length b' = length b) by (unfold lenN in L; lia). clear - B Lb. revert b Lb B.
    induction b' as [|c b' IH]; intros [|d b] Lb B; cbn in *; try discriminate Lb; [now symmetry|]. injection B as _ B. eauto. }
  subst x'. split; [|reflexivity]. now apply app_inv_tail in H.
Qed.
Lemma framed_nonempty m p : framed m p -> p <> [].
Proof. intros [b E] ->. discriminate E. Qed.

Lemma splitN_exact {A} (a b : list A) : splitN (lenN a) (a ++ b) = (a, b).
Proof.
  induction a as [|x a IH]; [apply splitN_zero|]. cbn [app splitN]. unfold lenN in *. cbn [length].
  destruct (N.of_nat (S (length a)) =? 0) eqn:E; [lia|]. replace (N.of_nat (S (length a)) - 1) with (N.of_nat (length a)) by lia.
  now rewrite IH.
Qed.

(** A sized value that has arrived completely is decoded, whatever happens to the source behind it. *)
Theorem c75_complete : forall o m t v ev p more, calm o ev -> wty t = Sized -> framed m p -> arriving ev = p ++ more ->
  let '(v1, c1) := merge_nested m Sized (merge m t) Sized v p in
  let '(v2, c2) := merge_nestedF o m Sized (mergeF o m t) Sized v (from ev) in
  v2 = v1 /\ match c2 with
             | OkF r => c1 = Ok [] /\ unread r = more
             | ErrF e => c1 = Err e
             | PanicF => c1 = Panic
             | NoFuelF => c1 = NoFuel
             | IoF _ => False
             end.
Proof.
  intros o m t v ev p more C W Fr E. destruct (framed_app m p more Fr) as (body & U & U').
  pose proof (from_fine o [] ev C (fun _ => eq_refl)) as F.
  assert (Ec : content [] (from ev) = p ++ more) by (now rewrite from_content, app_nil_r).
  pose proof (merge_suf m t) as Sf. rewrite W in Sf.
  pose proof (nested_sim o [] m Sized _ _ Sized (merge_sim o [] m t) Sf v (from ev) F) as [H Ev].
  pose proof (nested_complete o m _ _ v (from ev) (lenN body) (body ++ more) (merge_sim o [] m t) F) as Nc.
  rewrite Ec in H, Ev, Nc. specialize (Nc U ltac:(rewrite lenN_app; lia)).
  destruct (merge_nestedF o m Sized (mergeF o m t) Sized v (from ev)) as [v2 c2]. cbn [fst snd] in *.
  unfold merge_nested, rd_nested in *. cbn [wtype_eqb negb] in *. rewrite U in H, Ev. rewrite U'. cbn [bind try] in *.
  rewrite splitN_exact in H, Ev. pose proof (splitN_exact body []) as Sp. rewrite app_nil_r in Sp. rewrite Sp.
  destruct (merge m t v body) as [v1 c1] eqn:Em. cbn [fst snd] in *.
  split; [destruct Ev as [[x Ex]|Ev]; [now apply Nc in Ex|easy]|].
  destruct c2 as [r|e|x| |]; cbn in H.
  - destruct c1 as [rest|e| |]; try (destruct H as [H _]; discriminate H). apply Sf in Em. subst rest.
    destruct H as [H _]. injection H as H. split; [reflexivity|]. now symmetry.
  - destruct c1; try discriminate H. exact H.
  - now destruct (Nc x).
  - destruct c1; try discriminate H. reflexivity.
  - destruct c1; try discriminate H. reflexivity.
Qed.

(** ** Replay *)

Lemma entry_sim o cs m r : fine o cs r -> simA cs r (read_entry m (content cs r)) (read_entryF o m r).
Proof.
  intros F. unfold read_entry, read_entryF.
  pose proof (de_nested_sim o cs m (wty tEntry) (merge m tEntry) (mergeF o m tEntry) (merge_sim o cs m tEntry)
                (tEntry_suf m) (dflt tEntry rt_default) r F) as H.
  simcase H; cbn [bind bindF]; try reflexivity; try exact H. destruct (entry_of_val x); cbn; eauto.
Qed.
Lemma replay_step_sim o cs m t : stepsim o cs (replay_step m t) (replay_stepF o m t).
Proof.
  intros v r F. unfold replay_step, replay_stepF. pose proof (entry_sim o cs m r F) as H.
  simcase H; cbn [try tryF]; try (split; cbn; auto; fail); try (now apply simS_io).
  destruct (handle_entry m t _ v) as [v' [u|e'| |]]; split; cbn; eauto.
Qed.

(** A source that does not fail: replay is replay of the bytes. *)
Theorem c75_replay_pieces : forall o m t v ev, calm o ev -> failing ev = None ->
  let '(v1, c1) := replay m t v (arriving ev) in
  let '(v2, c2) := replayF o m t v (from ev) in
  v2 = v1 /\ match c2 with
             | OkF _ => c1 = Ok tt | ErrF e => c1 = Err e | PanicF => c1 = Panic | NoFuelF => c1 = NoFuel
             | IoF _ => False
             end.
Proof.
  intros o m t v ev C F. unfold replay, replayF. destruct (is_root v) as [[|]|e| |]; auto.
  pose proof (run_sim o [] _ _ (replay_step_sim o [] m t) (replay_step_consuming m t) v (from ev)
                (from_fine o [] ev C (fun _ => eq_refl))) as [H E].
  rewrite from_content, app_nil_r in H, E. unfold ok_unit.
  destruct (run (replay_step m t) v (arriving ev)) as [v1 c1], (runF o (replay_stepF o m t) v (from ev)) as [v2 c2].
  cbn [fst snd] in *. assert (K : forall x, c2 <> IoF x).
  { intros x ->. destruct H as (e & _ & F' & _). cbn in F'. congruence. }
  split; [destruct E as [[x E]|E]; [now apply K in E|easy]|].
  destruct c2 as [r|e|x| |]; cbn in H; try (rewrite H; reflexivity); [destruct H as [-> _]; reflexivity|now destruct (K x)].
Qed.

Lemma run_step {S} (step : S -> bytes -> S * res bytes) : consuming step -> forall s bs s' rest,
  step s bs = (s', Ok rest) -> run step s bs = run step s' rest.
Proof.
  intros C s bs s' rest E. pose proof (C _ _ _ _ E) as L. unfold run. destruct bs as [|b bs]; [cbn in L; lia|].
  cbn [length loop]. rewrite E. cbn [try]. apply loop_fuel; [exact C| |lia]. cbn in L. lia.
Qed.

Lemma read_framed m p body x : uv_deserialize m 64 p = Ok (lenN body, body) ->
  read_entry m (p ++ x) = do (v, rest) <- (let '(v, c) := merge m tEntry (dflt tEntry rt_default) body in do rest <- c; Ok (v, rest));
                          match entry_of_val v with Some e => Ok (e, x) | None => NoFuel end.
Proof.
  intros U. apply (uv_deserialize_ext _ _ _ x) in U. unfold read_entry, de_nested, merge_nested, rd_nested.
  change (wty tEntry) with Sized. cbn [wtype_eqb negb]. rewrite U. cbn [bind try]. rewrite splitN_exact.
  destruct (merge m tEntry (dflt tEntry rt_default) body) as [v [rest|e| |]] eqn:E; try reflexivity.
  pose proof (tEntry_suf m _ _ _ _ E) as E'. cbn in E'. subst rest. cbn. destruct (entry_of_val v); reflexivity.
Qed.

Lemma uv_pre m bits : forall bs value off n rest, uv_de_loop m bits value off bs = Ok (n, rest) ->
  exists q, bs = q ++ rest /\ forall x, uv_de_loop m bits value off (q ++ x) = Ok (n, x).
Proof.
  induction bs as [|b bs IH]; intros value off n rest E; [discriminate E|]. cbn [uv_de_loop] in E.
  assert (G : forall value', (if N.land b 128 =? 0 then Ok (value', bs) else uv_de_loop m bits value' (off + 7) bs) = Ok (n, rest) ->
    exists q, b :: bs = (b :: q) ++ rest /\ forall x,
      (if N.land b 128 =? 0 then Ok (value', q ++ x) else uv_de_loop m bits value' (off + 7) (q ++ x)) = Ok (n, x)).
  { intros value' H. destruct (N.land b 128 =? 0).
    - inversion H; subst. exists []. auto.
    - destruct (IH _ _ _ _ H) as (q & -> & Hq). exists q. auto. }
  destruct (off <? bits) eqn:O.
  - destruct (G _ E) as (q & Eq & Hq). exists (b :: q). split; [exact Eq|]. intros x. cbn [app uv_de_loop]. rewrite O. apply Hq.
  - destruct m; [discriminate E|]. destruct (G _ E) as (q & Eq & Hq). exists (b :: q). split; [exact Eq|].
    intros x. cbn [app uv_de_loop]. rewrite O. apply Hq.
Qed.

(** An entry read from a failing source was there in full. *)
Lemma read_was_framed o m k ev r e : calm o ev -> failing ev <> None -> fine o [] (k, Base ev) ->
  read_entryF o m (k, Base ev) = OkF (e, r) ->
  exists p, framed m p /\ content [] (k, Base ev) = p ++ content [] r /\ forall x, read_entry m (p ++ x) = Ok (e, x).
Proof.
  intros C Fl F E.
  assert (Fa : forall cs, fine o cs (k, Base ev)) by (intros cs; split; [exact I|intros H; now destruct (Fl H)|exact C]).
  pose proof (entry_sim o [] m _ (Fa [])) as H0. pose proof (entry_sim o [0] m _ (Fa [0])) as H1. rewrite E in H0, H1.
  destruct H0 as [H0 [y A]], H1 as [H1 _]. destruct (base_adv _ _ _ _ A) as (k' & ev' & -> & _).
  rewrite !(base_content [0]) in H1. set (D := content [] (k, Base ev)) in *. set (R := content [] (k', Base ev')) in *.
  assert (Ed : exists n rest, uv_deserialize m 64 D = Ok (n, rest)).
  { unfold read_entry, de_nested, merge_nested, rd_nested in H0. change (wty tEntry) with Sized in H0. cbn [wtype_eqb negb] in H0.
    destruct (uv_deserialize m 64 D) as [[n rest]|x| |]; try discriminate H0. eauto. }
  destruct Ed as (n & rest & U). pose proof (uv_deserialize_ext _ _ _ [0] _ _ U) as U1.
  assert (G : forall X rest' S e', uv_deserialize m 64 X = Ok (n, rest') -> read_entry m X = Ok (e', S) -> S = snd (splitN n rest')).
  { intros X rest' S e' Ux H. unfold read_entry, de_nested, merge_nested, rd_nested in H. change (wty tEntry) with Sized in H. cbn [wtype_eqb negb] in H.
    rewrite Ux in H. cbn [bind try] in H. destruct (splitN n rest') as [sub after]. cbn [snd].
    destruct (merge m tEntry (dflt tEntry rt_default) sub) as [v [q|x| |]] eqn:Em; cbn [bind] in H; try discriminate H.
    pose proof (tEntry_suf m _ _ _ _ Em) as E'. cbn in E'. subst q. cbn in H. destruct (entry_of_val v); [|discriminate H]. now inversion H. }
  pose proof (G _ _ _ _ U H0) as G0. pose proof (G _ _ _ _ U1 H1) as G1. clear G.
  assert (L : n <= lenN rest).
  { destruct (N.le_gt_cases n (lenN rest)) as [L|L]; [exact L|]. exfalso.
    destruct (splitN_fst_app rest [0] n ltac:(lia)) as [_ Es]. rewrite Es in G1.
    assert (Z : snd (splitN (n - lenN rest) [0]) = []).
    { cbn [splitN]. destruct (n - lenN rest =? 0) eqn:Z; [lia|reflexivity]. }
    rewrite Z in G1. now apply app_eq_nil in G1. }
  destruct (splitN n rest) as [body after] eqn:Es. pose proof (splitN_concat _ _ _ _ Es) as Ec. cbn [snd] in G0. subst after.
  assert (Lb : lenN body = n).
  { clear - Es L. revert n body Es L. induction rest as [|b rest IH]; intros n body Es L; cbn [splitN] in Es.
    - inversion Es; subst. unfold lenN in *. cbn in *. lia.
    - destruct (n =? 0) eqn:Z; [inversion Es; subst; unfold lenN; cbn; lia|].
      destruct (splitN (n - 1) rest) as [p q] eqn:Er. inversion Es; subst. unfold lenN in *. cbn [length] in *.
      specialize (IH _ _ Er). lia. }
  destruct (uv_pre m 64 D 0 0 n rest U) as (q & Eq & Uq).
  exists (q ++ body). assert (Up : uv_deserialize m 64 (q ++ body) = Ok (lenN body, body)) by (rewrite Lb; apply Uq).
  split; [now exists body|]. assert (Ex : D = (q ++ body) ++ R) by (rewrite Eq, <- app_assoc; f_equal; auto).
  split; [exact Ex|]. intros x. rewrite (read_framed m _ body x Up).
  rewrite Ex, (read_framed m _ body R Up) in H0.
  destruct (merge m tEntry (dflt tEntry rt_default) body) as [v [z|x'| |]]; cbn [bind] in *; try discriminate H0.
  destruct (entry_of_val v); [|discriminate H0]. now inversion H0.
Qed.

Lemma replay_io o m t : forall f v k ev v' x, calm o ev -> failing ev <> None -> (length (content [] (k, Base ev)) < f)%nat ->
  loopF f o (replay_stepF o m t) v (k, Base ev) = (v', IoF x) ->
  exists ps rest, content [] (k, Base ev) = concat ps ++ rest /\ Forall (framed m) ps /\
    (forall p q, framed m p -> rest <> p ++ q) /\ run (replay_step m t) v (concat ps) = (v', Ok []).
Proof.
  induction f as [|f IH]; intros v k ev v' x C Fl L H; [lia|]. cbn [loopF] in H.
  assert (F : fine o [] (k, Base ev)) by (split; [exact I|intros _; reflexivity|exact C]).
  pose proof (rd_eof_sim o [] _ F) as He. destruct (rd_eof o (k, Base ev)) as [[[|] r']|e|y| |]; try contradiction; cbn [tryF] in H; try discriminate H.
  2:{ inversion H; subst. destruct He as [_ ->]. exists [], []. split; [reflexivity|]. split; [constructor|].
      split; [|reflexivity]. intros p q Fp E. symmetry in E. apply app_eq_nil in E. destruct E as [E _]. now apply framed_nonempty in Fp. }
  destruct He as [_ A]. pose proof (radv_content [] _ _ _ A) as Ec. cbn [app] in Ec.
  pose proof (radv_fine _ _ _ _ _ A F) as F1. destruct (base_adv _ _ _ _ A) as (k1 & ev1 & -> & Fl1).
  rewrite Ec in L |- *. rewrite <- Fl1 in Fl. assert (C1 : calm o ev1) by apply F1.
  clear k ev F A Ec Fl1 C. unfold replay_stepF at 1 in H.
  destruct (read_entryF o m (k1, Base ev1)) as [[e r2]|e|y| |] eqn:Er; cbn [tryF] in H; try discriminate H.
  - destruct (read_was_framed o m k1 ev1 r2 e C1 Fl F1 Er) as (p & Fp & Ep & Rp).
    pose proof (entry_sim o [] m _ F1) as Hs. rewrite Er in Hs. destruct Hs as [_ [y A]].
    destruct (base_adv _ _ _ _ A) as (k2 & ev2 & -> & Fl2). pose proof (radv_fine _ _ _ _ _ A F1) as F2.
    assert (C2 : calm o ev2) by apply F2.
    destruct (handle_entry m t e v) as [v1 c] eqn:Eh. destruct c as [u|e'| |]; cbn [liftF bindF tryF] in H; try discriminate H.
    pose proof (framed_nonempty m p Fp) as Np.
    destruct (IH v1 k2 ev2 v' x C2 ltac:(congruence)) as (ps & rest & E1 & E2 & E3 & E4); [|exact H|].
    { rewrite Ep, app_length in L. destruct p; [congruence|cbn in L; lia]. }
    exists (p :: ps), rest. rewrite Ep, E1. cbn [concat]. split; [now rewrite app_assoc|]. split; [now constructor|]. split; [exact E3|].
    rewrite <- E4. apply run_step; [apply replay_step_consuming|]. unfold replay_step. rewrite Rp. cbn [try]. now rewrite Eh.
  - inversion H; subst. exists [], (content [] (k1, Base ev1)). split; [reflexivity|]. split; [constructor|]. split; [|reflexivity].
    intros p q Fp E. destruct (framed_app m p q Fp) as (body & U & _). rewrite <- E in U.
    pose proof (nested_complete o m _ _ (dflt tEntry rt_default) (k1, Base ev1) _ _ (merge_sim o [] m tEntry) F1 U ltac:(rewrite lenN_app; lia)) as Nc.
    unfold read_entryF, de_nestedF in Er. change (wty tEntry) with Sized in Er.
    destruct (merge_nestedF o m Sized (mergeF o m tEntry) Sized (dflt tEntry rt_default) (k1, Base ev1)) as [v2 c2]. cbn [snd] in Nc.
    destruct c2 as [r|e|y'| |]; cbn [bindF] in Er; try discriminate Er; [destruct (entry_of_val v2); discriminate Er|]. now destruct (Nc y').
Qed.

(** Replay from a source that fails never succeeds.  If it ends with the error of the source, the value is
    what replaying the entries that arrived completely gives: the entry cut off by the failure has no effect,
    and no entry before it is missing.  If it ends otherwise, it ends as it would whatever came later. *)
Theorem c75_replay : forall o m t v ev e, calm o ev -> failing ev = Some e ->
  match replayF o m t v (from ev) with
  | (_, OkF _) => False
  | (v', IoF x) => x = Other e /\
      exists ps rest, arriving ev = concat ps ++ rest /\ Forall (framed m) ps /\
        (forall p q, framed m p -> rest <> p ++ q) /\ replay m t v (concat ps) = (v', Ok tt)
  | (v', ErrF x) => forall cs, replay m t v (arriving ev ++ cs) = (v', Err x)
  | (v', PanicF) => forall cs, replay m t v (arriving ev ++ cs) = (v', Panic)
  | (v', NoFuelF) => forall cs, replay m t v (arriving ev ++ cs) = (v', NoFuel)
  end.
Proof.
  intros o m t v ev e C F. unfold replay, replayF. destruct (is_root v) as [[|]|x| |]; try reflexivity.
  assert (H : forall cs, simS cs (from ev) (run (replay_step m t) v (arriving ev ++ cs)) (runF o (replay_stepF o m t) v (from ev))).
  { intros cs. rewrite <- from_content. apply run_sim; [apply replay_step_sim|apply replay_step_consuming|].
    apply from_fine; [exact C|congruence]. }
  destruct (runF o (replay_stepF o m t) v (from ev)) as [v' [r|x|x| |]] eqn:Er.
  - destruct (H [0]) as [K _]. destruct K as [K [y A]]. destruct (base_adv _ _ _ _ A) as (k' & ev' & -> & _).
    rewrite base_content in K. destruct (run (replay_step m t) v (arriving ev ++ [0])) as [v1 c1] eqn:E1. cbn in K. subst c1.
    unfold run in E1. apply loop_end in E1. now apply app_eq_nil in E1.
  - intros cs. specialize (H cs). destruct (run _ _ _) as [v1 c1]. destruct H as [H [[x' E]|E]]; cbn in *; [discriminate E|]. now subst.
  - split.
    + destruct (H []) as [(e' & -> & F' & _) _]. cbn in F'. congruence.
    + unfold runF in Er. apply replay_io in Er; [|exact C|congruence|apply rd_fuel_spec].
      destruct Er as (ps & rest & E1 & E2 & E3 & E4). exists ps, rest.
      unfold from in E1. change (content [] (None, Base ev)) with (arriving ev ++ []) in E1. rewrite app_nil_r in E1.
      split; [exact E1|]. split; [exact E2|]. split; [exact E3|]. unfold ok_unit. now rewrite E4.
  - intros cs. specialize (H cs). destruct (run _ _ _) as [v1 c1]. destruct H as [H [[x' E]|E]]; cbn in *; [discriminate E|]. now subst.
  - intros cs. specialize (H cs). destruct (run _ _ _) as [v1 c1]. destruct H as [H [[x' E]|E]]; cbn in *; [discriminate E|]. now subst.
Qed.

Definition sendable (e : entry) : Prop := entry_ok e /\ lenN (enc (entry_val e)) < 2 ^ 64.

Lemma wire_framed m e : sendable e -> framed m (entry_wire e).
Proof.
  intros [O L]. exists (enc (entry_val e)). unfold entry_wire. cbv zeta. apply uv_deserialize_leb; [reflexivity|exact L].
Qed.

Lemma read_whole o m k ev a x : calm o ev -> sendable a -> content [] (k, Base ev) = entry_wire a ++ x ->
  exists k' ev', read_entryF o m (k, Base ev) = OkF (a, (k', Base ev')) /\ content [] (k', Base ev') = x /\
    calm o ev' /\ failing ev' = failing ev.
Proof.
  intros C S E. assert (F : fine o [] (k, Base ev)) by (split; [exact I|intros _; reflexivity|exact C]).
  pose proof (entry_sim o [] m _ F) as H. rewrite E, (read_entry_wire m a x (proj1 S) (proj2 S)) in H.
  destruct (wire_framed m a S) as [body U]. apply (uv_deserialize_ext _ _ _ x) in U. rewrite <- E in U.
  pose proof (nested_complete o m _ _ (dflt tEntry rt_default) (k, Base ev) _ _ (merge_sim o [] m tEntry) F U ltac:(rewrite lenN_app; lia)) as Nc.
  destruct (read_entryF o m (k, Base ev)) as [[a' r]|e|y| |] eqn:Er; cbn in H; try discriminate H.
  - destruct H as [H [y A]]. injection H as <- Hx. pose proof (radv_fine _ _ _ _ _ A F) as F'.
    destruct (base_adv _ _ _ _ A) as (k' & ev' & -> & Fl). exists k', ev'. split; [reflexivity|]. split; [now symmetry|].
    split; [apply F'|exact Fl].
  - exfalso. unfold read_entryF, de_nestedF in Er. change (wty tEntry) with Sized in Er.
    destruct (merge_nestedF o m Sized (mergeF o m tEntry) Sized (dflt tEntry rt_default) (k, Base ev)) as [v2 c2]. cbn [snd] in Nc.
    destruct c2 as [r|e|y'| |]; cbn [bindF] in Er; try discriminate Er; [destruct (entry_of_val v2); discriminate Er|]. now destruct (Nc y').
Qed.

Lemma read_part o m k ev e a x : calm o ev -> failing ev = Some e -> sendable a -> content [] (k, Base ev) ++ x = entry_wire a ->
  x <> [] -> read_entryF o m (k, Base ev) = IoF (Other e).
Proof.
  intros C Fl S E Nx.
  assert (F : forall cs, fine o cs (k, Base ev)) by (intros cs; split; [exact I|intros H; cbn in H; congruence|exact C]).
  pose proof (entry_sim o x m _ (F x)) as H. rewrite (base_content x), E in H.
  pose proof (read_entry_wire m a [] (proj1 S) (proj2 S)) as R. rewrite app_nil_r in R. rewrite R in H.
  destruct (read_entryF o m (k, Base ev)) as [[a' r]|y|y| |] eqn:Er; cbn [simA] in H; try discriminate H.
  - exfalso. destruct (read_was_framed o m k ev r a' C ltac:(congruence) (F []) Er) as (p & Fp & Ep & _).
    rewrite Ep, <- app_assoc in E. pose proof (app_nil_r (entry_wire a)) as Z. rewrite <- Z in E.
    destruct (framed_unique m p (entry_wire a) _ _ Fp (wire_framed m a S) E) as [_ K]. apply app_eq_nil in K. now destruct K.
  - destruct H as (e' & -> & F' & _). cbn in F'. congruence.
Qed.

Lemma broken_loop o m t a part tail e : sendable a -> part ++ tail = entry_wire a -> tail <> [] ->
  forall es f v k ev, calm o ev -> failing ev = Some e -> Forall sendable es ->
  content [] (k, Base ev) = concat (map entry_wire es) ++ part -> (length es < f)%nat ->
  loopF f o (replay_stepF o m t) v (k, Base ev) =
  (fst (handle_all m t es v),
   match snd (handle_all m t es v) with
   | Ok _ => IoF (Other e) | Err x => ErrF x | Panic => PanicF | NoFuel => NoFuelF
   end).
Proof.
  intros Sa Ea Nt. induction es as [|b es IH]; intros f v k ev C Fl Fs E L; (destruct f as [|f]; [cbn in L; lia|]); cbn [loopF];
    (assert (F : forall cs, fine o cs (k, Base ev)) by (intros cs; split; [exact I|intros H; cbn in H; congruence|exact C]));
    pose proof (rd_eof_sim o [0] _ (F [0])) as He; rewrite base_content in He;
    destruct (rd_eof o (k, Base ev)) as [[[|] r]|x|x| |]; try contradiction;
    try (destruct He as [He _]; apply app_eq_nil in He; now destruct He); cbn [tryF].
  - destruct He as [_ A]. pose proof (radv_content [] _ _ _ A) as Ec. pose proof (radv_fine _ _ _ _ _ A (F [])) as F'.
    destruct (base_adv _ _ _ _ A) as (k' & ev' & -> & Fl'). cbn [map concat app] in *. unfold replay_stepF at 1.
    rewrite (read_part o m k' ev' e a tail); try congruence; [reflexivity|apply F'].
  - destruct He as [(e' & -> & Fe & _) _]. cbn in Fe. cbn. congruence.
  - destruct He as [_ A]. pose proof (radv_content [] _ _ _ A) as Ec. pose proof (radv_fine _ _ _ _ _ A (F [])) as F'.
    destruct (base_adv _ _ _ _ A) as (k' & ev' & -> & Fl'). cbn [map concat app] in *. rewrite <- app_assoc in E.
    inversion Fs as [|? ? Sb Fs']; subst. unfold replay_stepF at 1.
    destruct (read_whole o m k' ev' b (concat (map entry_wire es) ++ part)) as (k2 & ev2 & -> & E2 & C2 & Fl2);
      [apply F'|exact Sb|congruence|].
    cbn [tryF handle_all]. destruct (handle_entry m t b v) as [v1 [u|z| |]]; cbn [liftF bindF tryF]; try reflexivity.
    apply IH; [exact C2|congruence|exact Fs'|exact E2|]. cbn in L. lia.
  - exfalso. destruct He as [_ He]. rewrite He in E. symmetry in E. cbn [map concat] in E. apply app_eq_nil in E. destruct E as [E _].
    apply app_eq_nil in E. destruct E as [E _]. unfold entry_wire in E. cbv zeta in E. apply app_eq_nil in E. destruct E as [E _].
    now apply leb128_nonempty in E.
Qed.

(** The log of a server, sent over a connection that breaks anywhere in it: the replica has exactly the
    entries that came through whole, and the caller learns of the failure. *)
Theorem c75_broken_log : forall o m t v ev e es cut part tail, calm o ev -> failing ev = Some e -> is_root v = Ok true ->
  Forall sendable (es ++ [cut]) -> entry_wire cut = part ++ tail -> tail <> [] ->
  arriving ev = concat (map entry_wire es) ++ part ->
  replayF o m t v (from ev) =
  (fst (handle_all m t es v),
   match snd (handle_all m t es v) with
   | Ok _ => IoF (Other e) | Err x => ErrF x | Panic => PanicF | NoFuel => NoFuelF
   end).
Proof.
  intros o m t v ev e es a part tail C Fl R Fs Ea Nt E. apply Forall_app in Fs. destruct Fs as [Fs Fa]. inversion Fa; subst.
  unfold replayF. rewrite R. unfold runF. apply broken_loop with (a := a) (part := part) (tail := tail); auto.
  - unfold content. cbn. now rewrite app_nil_r.
  - eapply Nat.le_lt_trans; [|apply rd_fuel_spec]. unfold content. cbn. rewrite app_nil_r, E, app_length.
    enough (length es <= length (concat (map entry_wire es)))%nat by lia. clear. induction es as [|b es IH]; [cbn; lia|].
    cbn [map concat length]. rewrite app_length. unfold entry_wire at 1. cbv zeta. rewrite app_length.
    pose proof (leb128_nonempty (lenN (enc (entry_val b)))) as N. destruct (leb128 (lenN (enc (entry_val b)))); [congruence|cbn; lia].
Qed.

(** Nothing is lost by it: when the entries from the cut one on are sent again, the replica ends where it
    would have ended without the failure. *)
Theorem c75_resume : forall o m t v lg ev e es cut part tail more, ty_ok t = true -> state_ty t = true -> root_ty t = true ->
  wt t v = true -> coh (mkRt lg Root) v -> calm o ev -> failing ev = Some e ->
  Forall sendable (es ++ cut :: more) -> entry_wire cut = part ++ tail -> tail <> [] ->
  arriving ev = concat (map entry_wire es) ++ part ->
  match replayF o m t v (from ev) with
  | (v', IoF x) => x = Other e /\
      replay m t v' (concat (map entry_wire (cut :: more))) = replay m t v (concat (map entry_wire (es ++ cut :: more)))
  | _ => snd (handle_all m t es v) <> Ok tt
  end.
Proof.
  intros o m t v lg ev e es a part tail more O St Rt W Co C Fl Fs Ea Nt E.
  pose proof (is_root_coh t v lg St Rt W Co) as R.
  apply Forall_app in Fs. destruct Fs as [Fs Fm]. pose proof Fm as Fm'. inversion Fm as [|? ? Sa _]; subst.
  rewrite (c75_broken_log o m t v ev e es a part tail C Fl R ltac:(apply Forall_app; auto) Ea Nt E).
  assert (Fo : Forall entry_ok es) by (eapply Forall_impl; [|exact Fs]; intros x Hx; apply Hx).
  pose proof (handle_all_wt m t es O St Fo v W) as W'. pose proof (handle_all_coh m t _ es O St Fo v W Co) as Co'.
  destruct (handle_all m t es v) as [v' [u|x| |]] eqn:Eh; cbn [fst snd] in *; try discriminate. destruct u.
  split; [reflexivity|]. unfold replay. rewrite R, (is_root_coh t v' lg St Rt W' Co'). f_equal.
  rewrite map_app, concat_app, (replay_run m t es Fs), Eh. reflexivity.
Qed.

Print Assumptions c75_pieces.
Print Assumptions c75_fails.
Print Assumptions c75_not_cut.
Print Assumptions c75_complete.
Print Assumptions c75_replay_pieces.
Print Assumptions c75_replay.
Print Assumptions c75_broken_log.
Print Assumptions c75_resume.

(** ** Cases *)

Definition small : lib := mkLib true (fun n => Nat.modulo n 3).
Definition wide : lib := mkLib false (fun _ => 32%nat).
Definition tSay : ty := TStruct (mkS true false) [(fns 0, TStr); (fns 1, TInt U16); (fns 2, TOpt TBool)].
Definition say0 : val := dflt tSay rt_default.
Definition say (s : bytes) (n : Z) (b : option val) : val :=
  VStruct true None [(fns 0, VStr s); (fns 1, VInt U16 n); (fns 2, VOpt b)].

(** Ten bytes in one piece, in three pieces with an interruption, and cut in the same place by the end, by a
    failure in the middle of a number, and by a failure where a field could begin. *)
Example c75_case_merge :
  let whole := [2; 2; 104; 105; 8; 172; 2; 18; 1; 1] in
  merge Debug tSay say0 whole = (say [104; 105] 300 (Some (VBool true)), Ok []) /\
  mergeF wide Debug tSay say0 (from [Data 2 (tl whole)]) = (say [104; 105] 300 (Some (VBool true)), OkF (None, Base [])) /\
  mergeF small Debug tSay say0
    (from [Data 2 [2; 104]; Fails Interrupted; Data 105 [8; 172]; Data 2 [18]; Fails Interrupted; Data 1 [1]]) =
    (say [104; 105] 300 (Some (VBool true)), OkF (None, Base [])) /\
  merge Debug tSay say0 (firstn 6 whole) = (say [104; 105] 0 None, Err UnexpectedEof) /\
  mergeF small Debug tSay say0 (from [Data 2 [2; 104; 105; 8; 172]; Fails (Other 7)]) = (say [104; 105] 0 None, IoF (Other 7)) /\
  merge Debug tSay say0 (firstn 7 whole) = (say [104; 105] 300 None, Ok []) /\
  mergeF small Debug tSay say0 (from [Data 2 [2; 104; 105; 8; 172; 2]; Fails (Other 7)]) = (say [104; 105] 300 None, IoF (Other 7)) /\
  merge Debug tSay say0 (firstn 3 whole) = (say [104] 0 None, Ok []) /\
  mergeF small Debug tSay say0 (from [Data 2 [2; 104]; Fails (Other 7)]) = (say [] 0 None, IoF (Other 7)).
Proof. vm_compute. auto 12. Qed.

(** Two entries and a part of a third: cut by the end of the source, the third takes effect with what is
    there of it (C18, C33); cut by a failure it does not, and sent again it does. *)
Example c75_case_replay :
  let e1 := EUpdate [0] [14] in let e2 := EUpdate [1] [16] in let e3 := EUpdate [] [0; 18; 8; 20; 16; 22] in
  let sent := concat (map entry_wire [e1; e2]) in
  entry_wire e3 = [9; 0; 10; 6; 0; 18; 8; 20; 16; 22] /\
  replayF small Debug tPoint (vPoint ex_rt 1 2 3) (from [Data (hd 0 sent) (tl sent); Data 9 [0; 10; 6; 0; 18]; Fails (Other 3)]) =
    (vPoint ex_rt 7 8 3, IoF (Other 3)) /\
  replayF wide Debug tPoint (vPoint ex_rt 1 2 3) (from [Data (hd 0 sent) (tl sent); Data 9 [0; 10]; Data 6 []; Fails (Other 3)]) =
    (vPoint ex_rt 7 8 3, IoF (Other 3)) /\
  replay Debug tPoint (vPoint ex_rt 7 8 3) (entry_wire e3) = (vPoint ex_rt 9 10 11, Ok tt) /\
  replay Debug tPoint (vPoint ex_rt 1 2 3) (sent ++ [9; 0; 10; 6; 0; 18]) = (vPoint ex_rt 9 0 0, Ok tt).
Proof. vm_compute. auto 6. Qed.

(** The hypotheses of the theorems on logs, met. *)
Example c75_case_broken :
  let e1 := EUpdate [0] [14] in let e3 := EUpdate [2] [172; 2] in
  sendable e1 /\ sendable e3 /\ framed Debug (entry_wire e3) /\ entry_wire e3 = [8; 0; 2] ++ [1; 2; 10; 2; 172; 2] /\
  let ev := [Data (hd 0 (entry_wire e1)) (tl (entry_wire e1)); Data 8 [0]; Data 2 []; Fails (Other 9); Data 1 [2; 10; 2; 172; 2]] in
  calm wide ev /\ failing ev = Some 9 /\ arriving ev = concat (map entry_wire [e1]) ++ [8; 0; 2] /\
  fst (replayF wide Release tPoint (vPoint ex_rt 1 2 3) (from ev)) = vPoint ex_rt 7 2 3.
Proof.
  cbv zeta. split; [|split].
  1,2: split; [split; [repeat constructor|split; [discriminate|repeat constructor]]|vm_compute; reflexivity].
  split; [exists [0; 2; 1; 2; 10; 2; 172; 2]; reflexivity|]. split; [reflexivity|].
  split; [|vm_compute; auto]. right. intros H. repeat (destruct H as [H|H]; [discriminate H|]). exact H.
Qed.

(** [calm] cannot be left out for an [eof] that does not call again: an interruption between two fields is then
    reported to the caller. *)
Theorem c75_interrupted_refuted : ~ (forall o m t v ev x, failing ev = None -> snd (mergeF o m t v (from ev)) <> IoF x).
Proof. intros H. refine (H wide Debug tSay say0 [Data 8 [1]; Fails Interrupted] Interrupted eq_refl _). vm_compute. reflexivity. Qed.
Print Assumptions c75_interrupted_refuted.
