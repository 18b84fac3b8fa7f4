(** C19, C21, C22, C36: log entries, loggers and paths. *)
From Verif Require Import Base Varint WireFmt Utf8 Types Ser Spec De Log ValInd SerProofs TypeProofs
  DeProofs RoundTrip MergeProofs NormProofs LogProofs Examples.

(** ** C19.  [entry_ok] is what Rust's types guarantee: [u32] segments and keys, [u8] bytes. *)
Theorem c19_entry_round_trip : forall m m' e h rest,
  entry_ok e -> lenN (entry_wire e) < 2 ^ 32 ->
  exists bs h', write_nested m (entry_val e) h = Ok (bs, h') /\ read_entry m' (bs ++ rest) = Ok (e, rest).
Proof.
  intros m m' e h rest O L. destruct (write_entry_wire m e h O L) as (h' & E). exists (entry_wire e), h'.
  split; [exact E|]. apply read_entry_wire; [exact O|]. unfold entry_wire in L. cbv zeta in L.
  rewrite lenN_app in L. change (2 ^ 32) with 4294967296 in L. change (2 ^ 64) with 18446744073709551616. lia.
Qed.
Print Assumptions c19_entry_round_trip.

(** Whatever bytes arrive, decoding an entry gives an entry or an error. *)
Theorem c19_decoded_entries_are_entries : forall m bs, bytes_ok bs ->
  match read_entry m bs with
  | Ok (e, rest) => entry_ok e /\ exists p, bs = p ++ rest
  | NoFuel => False
  | _ => True
  end.
Proof.
  intros m bs B. unfold read_entry.
  pose proof (de_nested_good m _ _ _ (dflt tEntry rt_default) bs (merge_good m tEntry tEntry_ok) (wt_dflt tEntry tEntry_ok rt_default) B) as G.
  destruct (de_nested m (wty tEntry) (merge m tEntry) (dflt tEntry rt_default) bs) as [[v rest]|e| |]; cbn [bind dgood] in *; auto.
  destruct G as [W (p & H & _)]. destruct (entry_of_val_some v W) as (e & E & O). rewrite E. split; [exact O|eauto].
Qed.
Print Assumptions c19_decoded_entries_are_entries.
Example c19_case :
  entry_wire (EListPush [] [2]) = [4; 8; 10; 1; 2] /\ entry_wire (EUpdate [1] [6]) = [7; 0; 2; 1; 1; 10; 1; 6] /\
  entry_wire (EListPop []) = [1; 9] /\ entry_wire (EMapRemove [] 2) = [3; 12; 8; 2] /\
  read_entry Debug [3; 12; 8; 2; 255] = Ok (EMapRemove [] 2, [255]).
Proof. vm_compute. auto 6. Qed.

(** ** C21 *)

(** Calls on a [BufferLogger]. *)
Inductive bcall := BLog (e : entry) | BLogMulti (es : list entry) | BBytes | BClear | BPluck | BPluckBytes.

(** What a call returns. *)
Inductive bret := RNone | RBytes (b : bytes) | REntries (es : list entry).
Definition bcall_step (m : mode) (b : buffer) (c : bcall) : res (bret * buffer) :=
  match c with
  | BLog e => let '(b, r) := buf_log b e in do _ <- r; Ok (RNone, b)
  | BLogMulti es => let '(b, r) := log_multi buf_log b es in do _ <- r; Ok (RNone, b)
  | BBytes => do (x, b) <- buf_bytes m b; Ok (RBytes x, b)
  | BClear => Ok (RNone, buf_clear b)
  | BPluck => let '(es, b) := buf_pluck b in Ok (REntries es, b)
  | BPluckBytes => do (x, b) <- buf_pluck_bytes m b; Ok (RBytes x, b)
  end.
Fixpoint bcalls (m : mode) (b : buffer) (cs : list bcall) : res (list bret * buffer) :=
  match cs with
  | [] => Ok ([], b)
  | c :: cs' => do (x, b) <- bcall_step m b c; do (xs, b) <- bcalls m b cs'; Ok (x :: xs, b)
  end.

(** Entries logged since the last call that empties the buffer, oldest first. *)
Fixpoint logged_in (cs : list bcall) : list entry :=
  match cs with
  | [] => []
  | BLog e :: cs' => e :: logged_in cs'
  | BLogMulti es :: cs' => es ++ logged_in cs'
  | _ :: cs' => logged_in cs'
  end.
Definition empties (c : bcall) : bool := match c with BClear | BPluck | BPluckBytes => true | _ => false end.
Fixpoint since (cs : list bcall) : list entry :=
  match cs with
  | [] => []
  | _ :: cs' => if existsb empties cs then since cs' else logged_in cs
  end.
Definition fits (e : entry) : Prop := entry_ok e /\ lenN (entry_wire e) < 2 ^ 32.

Lemma buf_bytes_spec m : forall b, Forall fits (map fst b) ->
  exists b', buf_bytes m b = Ok (concat (map entry_wire (map fst b)), b') /\ map fst b' = map fst b.
Proof.
  induction b as [|[e h] b IH]; intros F; [now exists []|]. cbn [map fst] in F. inversion F as [|? ? [O L] F']; subst.
  destruct (IH F') as (b' & E & M). destruct (write_entry_wire m e h O L) as (h' & W).
  exists ((e, h') :: b'). cbn [buf_bytes map fst concat]. rewrite W. cbn [unwrap bind]. rewrite E. cbn [bind].
  split; [reflexivity|now rewrite M].
Qed.

Lemma log_multi_buf es : forall b, exists b', log_multi buf_log b es = (b', Ok tt) /\ map fst b' = map fst b ++ es.
Proof.
  induction es as [|e es IH]; intros b; [exists b; split; [reflexivity|now rewrite app_nil_r]|].
  cbn [log_multi buf_log]. destruct (IH (b ++ [(e, fresh_store)])) as (b' & E & M). exists b'. split; [exact E|].
  rewrite M, map_app. cbn. now rewrite <- app_assoc.
Qed.

(** The contents a buffer with contents [b] has after [cs]. *)
Definition after (b : list entry) (cs : list bcall) : list entry :=
  if existsb empties cs then since cs else b ++ logged_in cs.
Lemma after_step m b c : Forall fits (map fst b) ->
  exists x b', bcall_step m b c = Ok (x, b') /\
    map fst b' = (if empties c then [] else map fst b ++ logged_in [c]).
Proof.
  intros F. destruct c; cbn [bcall_step empties logged_in].
  - exists RNone, (b ++ [(e, fresh_store)]). split; [reflexivity|]. now rewrite map_app.
  - destruct (log_multi_buf es b) as (b' & E & M). rewrite E. exists RNone, b'. split; [reflexivity|]. rewrite M. now rewrite app_nil_r.
  - destruct (buf_bytes_spec m b F) as (b' & E & M). rewrite E. exists (RBytes (concat (map entry_wire (map fst b)))), b'.
    split; [reflexivity|]. now rewrite M, app_nil_r.
  - exists RNone, []. now split.
  - exists (REntries (map fst b)), []. now split.
  - unfold buf_pluck_bytes. destruct (buf_bytes_spec m b F) as (b' & E & M). rewrite E. cbn [bind].
    exists (RBytes (concat (map entry_wire (map fst b)))), []. now split.
Qed.
Lemma logged_cons c cs : logged_in (c :: cs) = logged_in [c] ++ logged_in cs.
Proof. destruct c; cbn; rewrite ?app_nil_r; reflexivity. Qed.
Lemma after_all m : forall cs b, Forall fits (map fst b) -> Forall fits (logged_in cs) ->
  exists xs b', bcalls m b cs = Ok (xs, b') /\ map fst b' = after (map fst b) cs.
Proof.
  induction cs as [|c cs IH]; intros b F G.
  - exists [], b. split; [reflexivity|]. cbn. now rewrite app_nil_r.
  - rewrite logged_cons, Forall_app in G. destruct G as [G1 G2].
    destruct (after_step m b c F) as (x & b1 & E & M).
    assert (F1 : Forall fits (map fst b1)).
    { rewrite M. destruct (empties c); [constructor|]. apply Forall_app. now split. }
    destruct (IH b1 F1 G2) as (xs & b' & E' & M'). exists (x :: xs), b'. cbn [bcalls]. rewrite E. cbn [bind]. rewrite E'.
    split; [reflexivity|]. rewrite M', M. unfold after. cbn [existsb since]. destruct (empties c) eqn:Ec; cbn [orb].
    + destruct (existsb empties cs) eqn:Ecs; [reflexivity|].
      clear - Ecs. induction cs as [|d cs IH]; [reflexivity|]. cbn [existsb] in Ecs. cbn [since existsb]. now rewrite Ecs.
    + destruct (existsb empties cs) eqn:Ecs; [reflexivity|].
      now rewrite (logged_cons c cs), app_assoc.
Qed.

Theorem c21_buffer : forall m cs, Forall fits (logged_in cs) ->
  exists xs b, bcalls m [] cs = Ok (xs, b) /\
    bcall_step m b BPluck = Ok (REntries (since cs), []) /\
    bcall_step m b BPluckBytes = Ok (RBytes (concat (map entry_wire (since cs))), []) /\
    exists b', bcall_step m b BBytes = Ok (RBytes (concat (map entry_wire (since cs))), b') /\
      map fst b' = since cs.
Proof.
  intros m cs F. destruct (after_all m cs [] (Forall_nil _) F) as (xs & b & E & M). exists xs, b. split; [exact E|].
  assert (S : after [] cs = since cs).
  { unfold after. destruct (existsb empties cs) eqn:Ec; [reflexivity|]. destruct cs as [|c cs]; [reflexivity|].
    cbn [since]. now rewrite Ec. }
  change (map fst []) with (@nil entry) in M. rewrite S in M.
  assert (G : Forall fits (map fst b)).
  { rewrite M. clear - F. induction cs as [|c cs IH]; [constructor|]. cbn [since]. destruct (existsb empties (c :: cs)); [|exact F].
    apply IH. rewrite logged_cons, Forall_app in F. tauto. }
  destruct (buf_bytes_spec m b G) as (b' & W & M').
  cbn [bcall_step]. unfold buf_pluck, buf_pluck_bytes. rewrite W. cbn [bind]. rewrite <- M. split; [reflexivity|]. split; [reflexivity|].
  exists b'. now split.
Qed.
Print Assumptions c21_buffer.
Example c21_case :
  (do (xs, b) <- bcalls Debug [] [BLog (EListPop []); BPluck; BLog (EListPush [] [2]); BBytes; BLogMulti [EListPop []; EUpdate [1] [6]]];
   do (x, _) <- bcall_step Debug b BBytes; Ok (xs, x)) =
  Ok ([RNone; REntries [EListPop []]; RNone; RBytes [4; 8; 10; 1; 2]; RNone],
      RBytes [4; 8; 10; 1; 2; 1; 9; 7; 0; 2; 1; 1; 10; 1; 6]).
Proof. vm_compute. reflexivity. Qed.

(** [log_multi] of any logger: the entries in order, up to the first that fails. *)
Fixpoint takes_all {I} (f : logfn I) (i : I) (es : list entry) (i' : I) : Prop :=
  match es with
  | [] => i' = i
  | e :: es => exists j, f i e = (j, Ok tt) /\ takes_all f j es i'
  end.
Theorem c21_log_multi : forall I (f : logfn I) i es j, takes_all f i es j ->
  log_multi f i es = (j, Ok tt) /\
  forall e j' r es', f j e = (j', r) -> r <> Ok tt -> log_multi f i (es ++ e :: es') = (j', r).
Proof.
  intros I f i es. revert i. induction es as [|x es IH]; intros i j H.
  - cbn in H. subst j. split; [reflexivity|]. intros e j' r es' E N. cbn [app log_multi]. rewrite E. destruct r as [[]| | |]; try reflexivity. now destruct N.
  - destruct H as (k & E & H). destruct (IH k j H) as [H1 H2]. cbn [app log_multi]. rewrite E. split; [exact H1|exact H2].
Qed.
Print Assumptions c21_log_multi.
Example c21_multi_case :
  log_multi (fun n e => match e with EListPop _ => (n, Err InvalidData) | _ => (n + 1, Ok tt) end) 5 [EUpdate [] []; EListPop []; EUpdate [] []] =
  (6, Err InvalidData).
Proof. reflexivity. Qed.

(** ** C22.  Calls on a [RuntimeLogger] around any inner logger. *)
Inductive pcall := PLog (e : entry) | PPause | PUnpause.

Fixpoint pcalls {I} (m : mode) (f : logfn I) (l : rlogger I) (cs : list pcall) : res (rlogger I) :=
  match cs with
  | [] => Ok l
  | PLog e :: cs' => pcalls m f (fst (rl_log f l e)) cs'
  | PPause :: cs' => do (_, l) <- rl_pause m l; pcalls m f l cs'
  | PUnpause :: cs' => pcalls m f (snd (rl_unpause l)) cs'
  end.

(** Pauses minus unpauses. *)
Definition excess (cs : list pcall) : Z :=
  fold_right (fun c z => match c with PPause => z + 1 | PUnpause => z - 1 | PLog _ => z end)%Z 0%Z cs.
(** The number of unmatched pauses: the largest excess of any suffix (the empty one included). *)
Definition unmatched (cs : list pcall) (d : Z) : Prop :=
  (exists p s, cs = p ++ s /\ excess s = d) /\ (forall p s, cs = p ++ s -> (excess s <= d)%Z).

Lemma excess_app a b : excess (a ++ b) = (excess a + excess b)%Z.
Proof. induction a as [|c a IH]; [reflexivity|]. cbn [app excess fold_right] in *. fold (excess (a ++ b)). fold (excess a). destruct c; lia. Qed.

Lemma unmatched_unique cs d1 d2 : unmatched cs d1 -> unmatched cs d2 -> d1 = d2.
Proof.
  intros [(p1 & s1 & E1 & X1) M1] [(p2 & s2 & E2 & X2) M2]. specialize (M1 _ _ E2). specialize (M2 _ _ E1). lia.
Qed.

Lemma snoc_split {A} (p s cs : list A) c : cs ++ [c] = p ++ s -> s = [] \/ exists s', s = s' ++ [c] /\ cs = p ++ s'.
Proof.
  intros E. destruct s as [|x s _] using rev_ind; [now left|right]. rewrite app_assoc in E. apply app_inj_tail in E.
  destruct E as [E ->]. eauto.
Qed.

Lemma unmatched_step cs d c : unmatched cs d -> (0 <= d)%Z ->
  unmatched (cs ++ [c]) (match c with PLog _ => d | PPause => d + 1 | PUnpause => if (0 <? d)%Z then d - 1 else 0 end)%Z.
Proof.
  intros [(p & s & E & X) M] D. 
  assert (Y : forall s', excess (s' ++ [c]) = (excess s' + match c with PPause => 1 | PUnpause => -1 | PLog _ => 0 end)%Z).
  { intros s'. rewrite excess_app. destruct c; reflexivity. }
  split.
  - destruct c as [e| |].
    + exists p, (s ++ [PLog e]). rewrite E, app_assoc. split; [reflexivity|]. rewrite Y. lia.
    + exists p, (s ++ [PPause]). rewrite E, app_assoc. split; [reflexivity|]. rewrite Y. lia.
    + destruct (0 <? d)%Z eqn:Ed.
      * exists p, (s ++ [PUnpause]). rewrite E, app_assoc. split; [reflexivity|]. rewrite Y. lia.
      * exists (cs ++ [PUnpause]), []. rewrite app_nil_r. now split.
  - intros p' s' E'. destruct (snoc_split _ _ _ _ E') as [->|(s'' & -> & E'')].
    + change (excess []) with 0%Z. destruct c; try destruct (0 <? d)%Z eqn:?; lia.
    + specialize (M _ _ E''). rewrite Y. destruct c; try destruct (0 <? d)%Z eqn:?; lia.
Qed.

Lemma pcalls_app {I} m (f : logfn I) a b : forall l,
  pcalls m f l (a ++ b) = do l' <- pcalls m f l a; pcalls m f l' b.
Proof.
  induction a as [|c a IH]; intros l; [reflexivity|]. destruct c; cbn [app pcalls]; auto.
  destruct (rl_pause m l) as [[n l']| | |]; cbn [bind]; auto.
Qed.

Definition pauses (cs : list pcall) : N := lenN (filter (fun c => match c with PPause => true | _ => false end) cs).

Lemma pcalls_spec {I} m (f : logfn I) i : forall cs, pauses cs < 2 ^ 32 ->
  exists l, pcalls m f (rl_new i) cs = Ok l /\ unmatched cs (Z.of_N (rl_paused l)) /\ rl_paused l <= pauses cs.
Proof.
  induction cs as [|c cs IH] using rev_ind; intros P.
  - exists (rl_new i). split; [reflexivity|]. split; [|cbn; lia]. split.
    + exists [], []. split; reflexivity.
    + intros p s E. destruct p; [|discriminate E]. destruct s; [|discriminate E]. cbn. lia.
  - assert (Pe : pauses (cs ++ [c]) = pauses cs + match c with PPause => 1 | _ => 0 end).
    { unfold pauses. rewrite filter_app, lenN_app. destruct c; reflexivity. }
    rewrite Pe in *. destruct IH as (l & E & U & Le); [destruct c; lia|].
    rewrite pcalls_app, E. cbn [bind]. pose proof (unmatched_step cs _ c U ltac:(lia)) as U'.
    destruct c as [e| |]; cbn [pcalls].
    + exists (fst (rl_log f l e)). split; [reflexivity|].
      assert (Q : rl_paused (fst (rl_log f l e)) = rl_paused l).
      { unfold rl_log. destruct (rl_paused l =? 0); [|reflexivity]. destruct (f (rl_inner l) e). reflexivity. }
      rewrite Q. split; [exact U'|lia].
    + unfold rl_pause, add32. destruct (rl_paused l + 1 <? 2 ^ 32) eqn:B; [|lia]. cbn [bind].
      exists (mkRL (rl_inner l) (rl_paused l + 1)). split; [reflexivity|]. cbn [rl_paused].
      split; [|lia]. replace (Z.of_N (rl_paused l + 1)) with (Z.of_N (rl_paused l) + 1)%Z by lia. exact U'.
    + exists (snd (rl_unpause l)). split; [reflexivity|]. unfold rl_unpause. cbn [snd rl_paused].
      destruct (0 <? rl_paused l) eqn:B.
      * destruct (0 <? Z.of_N (rl_paused l))%Z eqn:B'; [|lia].
        replace (Z.of_N (rl_paused l - 1)) with (Z.of_N (rl_paused l) - 1)%Z by lia. split; [exact U'|lia].
      * destruct (0 <? Z.of_N (rl_paused l))%Z eqn:B'; [lia|]. replace (rl_paused l) with 0 by lia. split; [exact U'|lia].
Qed.

Theorem c22_pausing : forall I m (f : logfn I) i cs, pauses cs + 1 < 2 ^ 32 ->
  exists l d, pcalls m f (rl_new i) cs = Ok l /\ unmatched cs d /\
    (forall e, rl_log f l e = if (d =? 0)%Z then (let '(i', r) := f (rl_inner l) e in (mkRL i' (rl_paused l), r)) else (l, Ok tt)) /\
    (exists n l', rl_pause m l = Ok (n, l') /\ unmatched (cs ++ [PPause]) (Z.of_N n) /\ rl_inner l' = rl_inner l) /\
    (exists n l', rl_unpause l = (n, l') /\ unmatched (cs ++ [PUnpause]) (Z.of_N n) /\ rl_inner l' = rl_inner l).
Proof.
  intros I m f i cs P. destruct (pcalls_spec m f i cs) as (l & E & U & Le); [lia|].
  exists l, (Z.of_N (rl_paused l)). split; [exact E|]. split; [exact U|]. split; [|split].
  - intros e. unfold rl_log. destruct (rl_paused l =? 0) eqn:B; destruct (Z.of_N (rl_paused l) =? 0)%Z eqn:B'; try lia; reflexivity.
  - unfold rl_pause, add32. destruct (rl_paused l + 1 <? 2 ^ 32) eqn:B; [|lia].
    exists (rl_paused l + 1), (mkRL (rl_inner l) (rl_paused l + 1)). split; [reflexivity|]. split; [|reflexivity].
    pose proof (unmatched_step cs _ PPause U ltac:(lia)) as U'. replace (Z.of_N (rl_paused l + 1)) with (Z.of_N (rl_paused l) + 1)%Z by lia. exact U'.
  - unfold rl_unpause. eexists _, _. split; [reflexivity|]. split; [|reflexivity].
    pose proof (unmatched_step cs _ PUnpause U ltac:(lia)) as U'. cbn match in U'.
    destruct (0 <? rl_paused l) eqn:B; destruct (0 <? Z.of_N (rl_paused l))%Z eqn:B'; try lia.
    + replace (Z.of_N (rl_paused l - 1)) with (Z.of_N (rl_paused l) - 1)%Z by lia. exact U'.
    + replace (rl_paused l) with 0 by lia. exact U'.
Qed.
Print Assumptions c22_pausing.

(** The number is unique, so "exactly when" is meant literally. *)
Theorem c22_unmatched_is_a_number : forall cs d1 d2, unmatched cs d1 -> unmatched cs d2 -> d1 = d2.
Proof. exact unmatched_unique. Qed.
Print Assumptions c22_unmatched_is_a_number.
Example c22_case :
  (do l <- pcalls Debug buf_log (rl_new []) [PUnpause; PUnpause; PLog (EListPop [1]); PPause; PPause; PLog (EListPop [2]); PUnpause;
     PLog (EListPop [3]); PUnpause; PLog (EListPop [4])]; Ok (rl_paused l, map fst (rl_inner l))) =
  Ok (0, [EListPop [1]; EListPop [4]]).
Proof. vm_compute. reflexivity. Qed.

(** ** C36.  [collect_values] is the path as written into log entries. *)
Lemma collect_nested p n : collect_values (Child p n) = collect_values p ++ [n].
Proof. reflexivity. Qed.
Lemma collect_inj p : forall q, collect_values p = collect_values q -> p = q.
Proof.
  induction p as [|p IH n]; intros [|q n'] E; try reflexivity; rewrite ?collect_nested in E.
  - symmetry in E. now apply app_eq_nil in E.
  - now apply app_eq_nil in E.
  - apply app_inj_tail in E. destruct E as [E ->]. now rewrite (IH q E).
Qed.

Theorem c36_path_algebra : forall r n k,
  rt_parent (nested r n) = Ok r /\
  rt_sibling (nested r k) n = Ok (nested r n) /\
  rt_sibling r n = (do p <- rt_parent r; Ok (nested p n)) /\
  collect_values (rt_path (nested r n)) = collect_values (rt_path r) ++ [n] /\
  rt_log (nested r n) = rt_log r /\
  (rt_is_root r = true <-> collect_values (rt_path r) = []) /\
  rt_is_child r = negb (rt_is_root r) /\
  (rt_is_root r = true -> rt_parent r = Panic /\ rt_sibling r n = Panic /\ rt_field_number r = Panic /\ rt_get_field_number r = None) /\
  (rt_is_root r = false -> exists r' k', r = nested r' k' /\ rt_parent r = Ok r' /\ rt_field_number r = Ok k' /\ rt_get_field_number r = Some k').
Proof.
  intros r n k. assert (N : nested r n <> r -> True) by auto.
  split; [destruct r; reflexivity|]. split; [reflexivity|]. split; [destruct r as [lg [|p q]]; reflexivity|].
  split; [reflexivity|]. split; [reflexivity|]. split.
  { destruct r as [lg [|p q]]; cbn [rt_path]; [now split|]. rewrite collect_nested. split; intros H; [discriminate H|].
    now apply app_eq_nil in H. }
  split; [reflexivity|]. split.
  - destruct r as [lg [|p q]]; intros H; [|discriminate H]. repeat split; reflexivity.
  - destruct r as [lg [|p q]]; intros H; [discriminate H|]. exists (mkRt lg p), q. repeat split; reflexivity.
Qed.
Print Assumptions c36_path_algebra.
Theorem c36_paths_identify_nodes : forall r s, rt_log r = rt_log s ->
  collect_values (rt_path r) = collect_values (rt_path s) -> r = s.
Proof. intros [l p] [l' q] E C. cbn in *. subst. f_equal. now apply collect_inj. Qed.
Print Assumptions c36_paths_identify_nodes.
Example c36_case :
  collect_values (rt_path (nested (nested (nested ex_rt 3) 1) 4)) = [3; 1; 4] /\
  rt_sibling (nested (nested ex_rt 3) 1) 9 = Ok (nested (nested ex_rt 3) 9) /\ rt_parent ex_rt = Panic.
Proof. vm_compute. auto. Qed.
