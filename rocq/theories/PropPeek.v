(** C47: the one-byte look-ahead of [Reader] never drops or repeats a byte. *)
From Verif Require Import Base Varint WireFmt Utf8 Types Ser Spec De Log State ValInd VarintProofs WireProofs
  SerProofs TypeProofs EqProofs DeProofs RoundTrip HandleProofs Peek PeekProofs Examples.

Lemma entry_sim m r : clean (snd r) -> simA r (read_entry m (content r)) (read_entryE m r).
Proof.
  intros C. unfold read_entry, read_entryE.
  pose proof (de_nested_sim m (wty tEntry) (merge m tEntry) (mergeE m tEntry) (merge_sim m tEntry)
                (tEntry_suf m) (dflt tEntry rt_default) r C) as H.
  simcase H; cbn [bind]; try exact I; try reflexivity.
  destruct (entry_of_val x); cbn; eauto.
Qed.
Lemma replay_step_sim m t : stepsim (replay_step m t) (replay_stepE m t).
Proof.
  intros v r C. unfold replay_step, replay_stepE. pose proof (entry_sim m r C) as H.
  simcase H; cbn [try tryE]; try (split; cbn; auto; fail).
  destruct (handle_entry m t _ v) as [v' [u|e'| |]]; split; cbn; eauto.
Qed.

(** Decoding any bytes into any value of any type through a reader gives the value and the outcome that
    decoding the bytes themselves gives; on success, the reader has consumed a prefix of the bytes, has
    the rest still to give, and its source, seen with the byte kept, has lost exactly that prefix. *)
Theorem c47_no_loss m t v bs :
  let '(v1, o1) := merge m t v bs in
  let '(v2, o2) := mergeE m t v (None, Base bs) in
  v1 = v2 /\
  match o1, o2 with
  | Ok rest, Ok (kept, Base bs') => rest = opt1 kept ++ bs' /\ exists read, bs = read ++ opt1 kept ++ bs'
  | Err e, Err e' => e = e'
  | Panic, Panic => True
  | _, _ => False
  end \/ v1 = v2 /\ o1 = NoFuel /\ o2 = NoFuel.
Proof.
  pose proof (merge_sim m t v (None, Base bs) I) as H.
  change (content (None, Base bs)) with bs in H.
  destruct (merge m t v bs) as [v1 o1], (mergeE m t v (None, Base bs)) as [v2 o2].
  destruct H as [E H]. cbn [fst snd] in E, H. subst v2. simcase H; auto.
  left. split; [reflexivity|]. pose proof (radv_content _ _ _ A) as Ec.
  destruct A as (k & A & _). destruct r as [kept [bs'|n k' s]].
  - split; [reflexivity|]. exists y. exact Ec.
  - cbn in A. inversion A.
Qed.

(** The same from any reader: inside sized fields nested to any depth, with or without a byte kept. *)
Theorem c47_any_reader m t v kept s : clean s ->
  let '(v1, o1) := merge m t v (opt1 kept ++ src_bytes s) in
  let '(v2, o2) := mergeE m t v (kept, s) in
  v1 = v2 /\ sim (kept, s) o1 o2.
Proof.
  intros C. pose proof (merge_sim m t v (kept, s) C) as H. change (content (kept, s)) with (opt1 kept ++ src_bytes s) in H.
  destruct (merge m t v _) as [v1 o1], (mergeE m t v _) as [v2 o2]. exact H.
Qed.

(** What makes it so.  A sized field is entered only after its length was read, and whatever was kept
    before, nothing is then. *)
Theorem c47_guard m bits r x r' : clean (snd r) -> uv_deserializeE m bits r = Ok (x, r') -> fst r' = None.
Proof. intros C. exact (proj2 (uv_sim m bits r C) x r'). Qed.

(** The same for the replay of a log: the loop looks ahead before each entry. *)
Theorem c47_replay m t v bs : replayE m t v (None, Base bs) = replay m t v bs.
Proof.
  unfold replay, replayE. destruct (is_root v) as [[|]|e| |]; try reflexivity.
  pose proof (run_sim _ _ (replay_step_sim m t) (replay_step_consuming m t) v (None, Base bs) I) as H.
  change (content (None, Base bs)) with bs in H. unfold ok_unit.
  destruct (run (replay_step m t) v bs) as [v1 o1], (runE (replay_stepE m t) v (None, Base bs)) as [v2 o2].
  destruct H as [E H]. cbn [fst snd] in E, H. subst v2. simcase H; reflexivity.
Qed.

(** Entering a sized field with a byte kept would go wrong: the field gets the bytes behind the kept one,
    and the kept byte comes back after it. *)
Definition kept_reader : reader := snd (rd_eofE (None, Base [1; 2; 3; 4])).
Example c47_hazard :
  content kept_reader = [1; 2; 3; 4] /\
  content (rd_enter 2 kept_reader) = [2; 3] /\
  (do (got, sub) <- to_endE (rd_enter 2 kept_reader); do r <- rd_leave kept_reader sub;
   Ok (got, content r)) = Ok ([2; 3], [1; 4]).
Proof. vm_compute. auto. Qed.
(** So would leaving one with a byte kept: that byte would be lost. *)
Example c47_hazard_leave :
  (let sub := snd (rd_eofE (rd_enter 2 (None, Base [1; 2; 3; 4]))) in
   do r <- rd_leave (None, Base [1; 2; 3; 4]) sub; Ok (content r)) = Ok [2; 3; 4].
Proof. reflexivity. Qed.

Example c47_case :
  let bs := enc (vAll ex_rt) in
  lenN bs = 72 /\
  fst (mergeE Debug tAll (dflt tAll ex_rt) (None, Base bs)) = fst (merge Debug tAll (dflt tAll ex_rt) bs) /\
  snd (mergeE Debug tAll (dflt tAll ex_rt) (None, Base bs)) = Ok (None, Base []) /\
  snd (merge Debug tAll (dflt tAll ex_rt) bs) = Ok [] /\
  snd (mergeE Debug tAll (dflt tAll ex_rt) (Some 2, Lim 39 None (Base (skipn 1 bs)))) =
  Ok (None, Lim 0 None (Base (skipn 40 bs))).
Proof. vm_compute. repeat split. Qed.

Print Assumptions c47_no_loss.
Print Assumptions c47_any_reader.
Print Assumptions c47_guard.
Print Assumptions c47_replay.
