(** C76: serializing to a writer that takes its bytes in pieces, is interrupted, or fails.

    [room w] is how many bytes the writer takes before it fails ([None]: it never does), [fault w] how it
    fails (SinkProofs.v). *)
From Verif Require Import Base Varint WireFmt Utf8 Types Ser Spec De Log State StateSpec ValInd VarintProofs WireProofs
  SerProofs TypeProofs EqProofs DeProofs RoundTrip NormProofs LogProofs HandleProofs Stream StreamProofs PropStream Sink SinkProofs Examples.

(** What [bs] becomes on its way to [w]: all of it is sent and the call succeeds, or as much as the writer
    takes and the call fails as the writer does. *)
Definition sends (w : sink) (bs : bytes) (r : resW unit) (w' : sink) : Prop :=
  match room w with
  | Some c => if Nat.ltb c (length bs)
              then sent w' = sent w ++ firstn c bs /\ (exists x, fault w = Some x /\ r = IoW x)
              else sent w' = sent w ++ bs /\ r = OkW tt
  | None => sent w' = sent w ++ bs /\ r = OkW tt
  end.
Lemma outcome_sends w bs r w' : outcome w bs r w' -> sends w bs r w'.
Proof.
  unfold sends. intros [(F & -> & E & _ & _)|(c & x & R & L & Fx & -> & E)].
  - unfold fits in F. destruct (room w) as [c|]; [|auto]. destruct (Nat.ltb_spec c (length bs)); [lia|auto].
  - rewrite R. destruct (Nat.ltb_spec c (length bs)); [|lia]. eauto.
Qed.

(** Whatever the writer does, the bytes sent are those of [to_bytes] or the first of them, and the size caches
    are left as if all had been written: a second attempt, or any other use of the value, is not affected. *)
Theorem c76_sent : forall m t v h w, ty_ok t = true -> wt t v = true -> writable v = true -> lenN (enc v) < 2 ^ 32 ->
  exists bs r h' w', to_bytes m v h = Ok bs /\ bs = enc v /\ steit_serializeW m v h w = (r, h', w') /\ sends w bs r w' /\
    (forall b y, at_addr [] v b y -> has_cache y = true -> h' b = lenN (enc y)) /\
    (forall b, (forall y, at_addr [] v b y -> has_cache y = true -> False) -> h' b = h b).
Proof.
  intros m t v h w O W Wr L. pose proof (wt_ser_ok t v O W Wr) as So.
  destruct (serializeW_spec v So L m h w) as (r & h' & w' & E & A & F & Ou).
  exists (enc v), r, h', w'. split; [now apply to_bytes_spec|]. split; [reflexivity|]. split; [exact E|].
  split; [now apply outcome_sends|]. split; [exact A|exact F].
Qed.

(** A value that cannot be written (C35) is refused before the first byte. *)
Theorem c76_refused : forall m v h w, writable v = false -> exists h', steit_serializeW m v h w = (PanicW, h', w).
Proof.
  intros m v h w Wr. exists h. unfold steit_serializeW, bindW, cachesW, cache_size.
  now rewrite (compute_bad v (unwritable_bad v Wr)).
Qed.

(** After a failure the value serializes elsewhere as if nothing had happened. *)
Theorem c76_again : forall m t v h w, ty_ok t = true -> wt t v = true -> writable v = true -> lenN (enc v) < 2 ^ 32 ->
  let '(r, h', w') := steit_serializeW m v h w in
  to_bytes m v h' = to_bytes m v h /\
  (room w = None -> r = OkW tt /\ (do bs <- to_bytes m v h; Ok (sent w ++ bs)) = Ok (sent w')).
Proof.
  intros m t v h w O W Wr L. pose proof (wt_ser_ok t v O W Wr) as So.
  destruct (serializeW_spec v So L m h w) as (r & h' & w' & E & A & F & Ou). rewrite E.
  rewrite !(to_bytes_spec v So L). split; [reflexivity|]. intros R. apply outcome_sends in Ou. unfold sends in Ou. rewrite R in Ou.
  destruct Ou as [-> ->]. auto.
Qed.

(** ** Logs *)

(** The entries of a log one after another, as [BufferLogger::bytes] writes them (loggers/buffer.rs 21-24), to a
    writer; [?] instead of [unwrap]. *)
Fixpoint send_all (m : mode) (b : buffer) (w : sink) : resW unit * sink :=
  match b with
  | [] => (OkW tt, w)
  | (e, h) :: b' => match write_nestedW m (entry_val e) h w with
                    | (OkW _, _, w') => send_all m b' w'
                    | (r, _, w') => (r, w')
                    end
  end.
Definition loggable (e : entry) : Prop := entry_ok e /\ lenN (entry_wire e) < 2 ^ 32.

Lemma entry_outcome m e h w : loggable e ->
  exists r h' w', write_nestedW m (entry_val e) h w = (r, h', w') /\ outcome w (entry_wire e) r w'.
Proof.
  intros [O L]. pose proof (lossless_entry e O) as Ls. unfold lossless in Ls. apply andb_prop in Ls. destruct Ls as [Ls _].
  assert (Wr : writable (entry_val e) = true) by (apply andb_prop in Ls; apply Ls || exact Ls).
  pose proof (wt_ser_ok tEntry _ tEntry_ok (wt_entry e O) Wr) as So. rewrite entry_wire_delimited in L |- *.
  destruct (write_nestedW_spec (entry_val e) So) with (m := m) (h := h) (s := w) as (r & h' & w' & E & _ & _ & Ou); [|exact L|].
  - unfold delimited in L. destruct (vwty (entry_val e)); [exact L|]. rewrite lenN_app in L. lia.
  - eauto.
Qed.
Lemma send_outcome m : forall b w, Forall loggable (map fst b) ->
  outcome w (concat (map entry_wire (map fst b))) (fst (send_all m b w)) (snd (send_all m b w)).
Proof.
  induction b as [|[e h] b IH]; intros w F; [apply outcome_nil|]. cbn [map fst concat send_all] in *. inversion F as [|? ? Le F']; subst.
  destruct (entry_outcome m e h w Le) as (r & h' & w' & -> & Ou).
  destruct (outcome_cases _ _ _ _ Ou) as [->|[x ->]].
  - apply outcome_app with w'; [exact Ou|now apply IH].
  - cbn. now apply outcome_io.
Qed.

Theorem c76_log : forall m b w, Forall loggable (map fst b) ->
  sends w (concat (map entry_wire (map fst b))) (fst (send_all m b w)) (snd (send_all m b w)) /\
  exists b', buf_bytes m b = Ok (concat (map entry_wire (map fst b)), b').
Proof.
  intros m b w F. split; [now apply outcome_sends, send_outcome|].
  induction b as [|[e h] b IH]; [cbn; eauto|]. cbn [map fst concat] in *. inversion F as [|? ? Le F']; subst.
  destruct (IH F') as [b' E']. destruct (write_entry_wire m e h (proj1 Le) (proj2 Le)) as [h' E].
  exists ((e, h') :: b'). cbn [buf_bytes]. rewrite E. cbn. now rewrite E'.
Qed.

(** From one end of a connection to the other: the sender's writer breaks after [c] bytes of the log, the
    receiver gets those bytes, in whatever pieces, and then an error.  The receiver's state is that after a
    first part of the log, and one more entry did not fit. *)
Theorem c76_connection : forall m m' o b c t v ev e, Forall loggable (map fst b) ->
  calm o ev -> failing ev = Some e -> is_root v = Ok true ->
  forall w, sent w = [] -> room w = Some c -> (c < length (concat (map entry_wire (map fst b))))%nat ->
  arriving ev = sent (snd (send_all m b w)) ->
  exists es1 cut es2, map fst b = es1 ++ cut :: es2 /\
    (length (concat (map entry_wire es1)) <= c < length (concat (map entry_wire (es1 ++ [cut]))))%nat /\
    replayF o m' t v (from ev) =
      (fst (handle_all m' t es1 v),
       match snd (handle_all m' t es1 v) with
       | Ok _ => IoF (Other e) | Err x => ErrF x | Panic => PanicF | NoFuel => NoFuelF
       end).
Proof.
  intros m m' o b c t v ev e F C Fl R w Sw Rw L Ea.
  destruct (c76_log m b w F) as [Hs _]. unfold sends in Hs. rewrite Rw in Hs. destruct (Nat.ltb_spec c (length (concat (map entry_wire (map fst b))))) as [_|K]; [|lia].
  destruct Hs as [Hs _]. rewrite Sw in Hs. cbn [app] in Hs. rewrite Hs in Ea. clear Hs Sw Rw w.
  revert F L Ea. generalize (map fst b). intros es F L Ea. clear b.
  assert (G : exists es1 cut es2 part tail, es = es1 ++ cut :: es2 /\ entry_wire cut = part ++ tail /\ tail <> [] /\
    firstn c (concat (map entry_wire es)) = concat (map entry_wire es1) ++ part /\
    (length (concat (map entry_wire es1)) <= c < length (concat (map entry_wire (es1 ++ [cut]))))%nat).
  { clear Ea F. revert c L. induction es as [|a es IH]; intros c L; [cbn in L; lia|]. cbn [map concat] in *. rewrite app_length in L.
    destruct (Nat.lt_ge_cases c (length (entry_wire a))) as [La|La].
    - exists [], a, es, (firstn c (entry_wire a)), (skipn c (entry_wire a)). split; [reflexivity|]. split; [symmetry; apply firstn_skipn|].
      split; [intros Z; apply (f_equal (@length N)) in Z; rewrite skipn_length in Z; cbn in Z; lia|].
      cbn [map concat app]. rewrite app_nil_r. split; [|cbn; lia]. rewrite firstn_app. replace (c - length (entry_wire a))%nat with O by lia.
      cbn. now rewrite app_nil_r.
    - destruct (IH (c - length (entry_wire a))%nat ltac:(lia)) as (es1 & cut & es2 & part & tail & -> & Ec & Nt & Ef & Lc).
      exists (a :: es1), cut, es2, part, tail. split; [reflexivity|]. split; [exact Ec|]. split; [exact Nt|].
      cbn [map concat app] in *. rewrite !app_length. split; [|lia].
      rewrite firstn_app, Ef, (firstn_all2 (entry_wire a)) by lia. now rewrite app_assoc. }
  destruct G as (es1 & cut & es2 & part & tail & -> & Ec & Nt & Ef & Lc). exists es1, cut, es2. split; [reflexivity|]. split; [exact Lc|].
  apply (c75_broken_log o m' t v ev e es1 cut part tail C Fl R); [|exact Ec|exact Nt|congruence].
  apply Forall_app in F. destruct F as [F1 F2]. inversion F2; subst. apply Forall_app.
  assert (S : forall x, loggable x -> sendable x).
  { intros x [Ox Lx]. split; [exact Ox|]. unfold entry_wire in Lx. cbv zeta in Lx. rewrite lenN_app in Lx.
    change (2 ^ 32) with 4294967296 in Lx. change (2 ^ 64) with 18446744073709551616. lia. }
  split; [eapply Forall_impl; [|exact F1]; exact S|]. constructor; [now apply S|constructor].
Qed.

(** A value written to one end is read at the other, however both ends cut it. *)
Theorem c76_across : forall m m' o t v h w r h' w' ev, ty_ok t = true -> wt t v = true -> lossless t v = true ->
  lenN (enc v) < 2 ^ 32 -> sent w = [] -> steit_serializeW m v h w = (r, h', w') ->
  calm o ev -> failing ev = None -> arriving ev = sent w' -> r = OkW tt ->
  exists v' rd, deserializeF o m' t ev = OkF (v', rd) /\ unread rd = [] /\ v' = norm rt_default v /\ veqb v v' = true.
Proof.
  intros m m' o t v h w r h' w' ev O W Ls L Sw E C Fl Ea ->.
  pose proof Ls as L'. apply lossless_and in L'. destruct L' as (Wr & _).
  destruct (c76_sent m t v h w O W Wr L) as (bs & r1 & h1 & w1 & _ & -> & E1 & Hs & _). rewrite E in E1. inversion E1; subst r1 h1 w1.
  assert (Es : sent w' = enc v).
  { unfold sends in Hs. rewrite Sw in Hs. destruct (room w) as [c|]; [|apply Hs]. destruct (Nat.ltb c (length (enc v))); [|apply Hs].
    destruct Hs as [_ (x & _ & K)]. discriminate K. }
  assert (R : merge m' t (dflt t rt_default) (enc v) = (norm rt_default v, Ok [])).
  { pose proof (roundtrip m' t O rt_default v [] W Ls) as R. rewrite app_nil_r in R. apply R; [lia|auto]. }
  pose proof (c75_pieces o m' t (dflt t rt_default) ev C Fl) as P. rewrite Ea, Es, R in P.
  unfold deserializeF, from in *. destruct (mergeF o m' t (dflt t rt_default) (None, Base ev)) as [v2 c2]. destruct P as (-> & P & K).
  destruct c2 as [rd|x|x| |]; try discriminate P; [|now destruct (K x)]. injection P as P.
  exists (norm rt_default v), rd. cbn. split; [reflexivity|]. split; [now symmetry|]. split; [reflexivity|now apply (veqb_norm_self t)].
Qed.

Print Assumptions c76_sent.
Print Assumptions c76_refused.
Print Assumptions c76_again.
Print Assumptions c76_log.
Print Assumptions c76_connection.
Print Assumptions c76_across.

(** ** Cases *)

Example c76_case :
  let v := vAll ex_rt in
  let try ev := let '(r, h', w') := steit_serializeW Debug v junk (mkSink ev [9]) in (r, h' [], h' [O], h' [5; 5]%nat, sent w') in
  to_bytes Debug v junk = Ok (enc v) /\ lenN (enc v) = 72 /\ junk [] = 77 /\
  try [] = (OkW tt, 72, 6, 79, 9 :: enc v) /\
  try [Takes 1; Pauses; Takes 30; Pauses; Takes 38; Breaks 4] = (OkW tt, 72, 6, 79, 9 :: enc v) /\
  try [Takes 1; Pauses; Takes 30; Pauses; Takes 37; Breaks 4] = (IoW (WriteErr 4), 72, 6, 79, 9 :: firstn 71 (enc v)) /\
  try [Takes 1; Pauses; Full] = (IoW WriteZero, 72, 6, 79, 9 :: firstn 2 (enc v)) /\
  try [Breaks 4] = (IoW (WriteErr 4), 72, 6, 79, [9]).
Proof. vm_compute. auto 12. Qed.

Example c76_case_refused :
  steit_serializeW Debug (VMap ex_rt [(1, VBool true); (536870912, VBool true)]) junk (mkSink [] []) = (PanicW, junk, mkSink [] []).
Proof. reflexivity. Qed.

Example c76_case_connection :
  let b := [(EUpdate [0] [14], junk); (EUpdate [1] [16], fresh_store); (EUpdate [2] [18], junk)] in
  Forall loggable (map fst b) /\ length (concat (map entry_wire (map fst b))) = 24%nat /\
  let w := mkSink [Takes 9; Pauses; Takes 10; Breaks 4] [] in
  room w = Some 21%nat /\ fault w = Some (WriteErr 4) /\
  let got := sent (snd (send_all Release b w)) in
  fst (send_all Release b w) = IoW (WriteErr 4) /\ length got = 21%nat /\
  replayF small Debug tPoint (vPoint ex_rt 1 2 3) (from [Data (hd 0 got) (firstn 16 (tl got)); Fails Interrupted; Data (nth 17 got 0) (skipn 18 got); Fails (Other 8)]) =
    (vPoint ex_rt 7 8 3, IoF (Other 8)).
Proof.
  cbv zeta. split; [|vm_compute; auto 8].
  repeat constructor; try discriminate; try (vm_compute; reflexivity).
Qed.
