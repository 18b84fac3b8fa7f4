(** C84: values made from untrusted bytes are at most linear in the number of bytes. *)
From Verif Require Import Base Varint WireFmt Utf8 Types Ser Spec De Log State StateSpec ValInd VarintProofs WireProofs SerProofs TypeProofs DeProofs RoundTrip
  LogProofs HandleProofs Weight WeightProofs.
Local Open Scope nat_scope.

(** An entry that is read has taken its payload and one byte more. *)
Lemma read_entry_len m bs e rest : read_entry m bs = Ok (e, rest) -> 1 + length (entry_bytes e) + length rest <= length bs.
Proof.
  unfold read_entry, de_nested, merge_nested. replace (wtype_eqb (wty tEntry) (wty tEntry)) with true by reflexivity. cbn [negb wty tEntry].
  destruct (rd_nested m bs) as [[sub after]|x| |] eqn:E; cbn [try bind]; try discriminate. apply rd_nested_suffix in E. destruct E as (p & -> & P).
  assert (G : grain 0 tEntry <= 1) by (cbn; lia). pose proof (merge_grows 0 m tEntry 1 G (dflt tEntry rt_default) sub) as M. unfold tEntry in M.
  destruct (merge m _ (dflt _ rt_default) sub) as [v [r|x| |]]; cbn [fst snd left_over bind] in *; try discriminate.
  destruct (entry_of_val v) as [e'|] eqn:V; [|discriminate]. intros H. injection H as <- <-.
  assert (W : length (entry_bytes e') <= weight 0 v).
  { unfold entry_of_val in V. destruct v; try discriminate V.
    repeat match type of V with context [match ?x with _ => _ end] => destruct x; try discriminate V end;
    injection V as <-; cbn; lia. }
  change (weight 0 (dflt _ rt_default)) with 0 in M. destruct p; [congruence|]. rewrite !app_length in *. cbn [length]. lia.
Qed.
Lemma replay_step_grows c m t K : reach c t <= K -> grows K (weight c) (replay_step m t).
Proof.
  intros R v bs. unfold replay_step. destruct (read_entry m bs) as [[e rest]|x| |] eqn:E; cbn [try fst snd left_over]; try lia.
  apply read_entry_len in E. pose proof (handle_grows c m t K R (entry_path e) (entry_kind e) (entry_key e) (entry_bytes e) v) as H.
  unfold handle_entry. destruct (handle m t (entry_path e) (entry_kind e) (entry_key e) (entry_bytes e) v) as [v' [u|x| |]]; cbn [fst snd left_over bind] in *; nia.
Qed.

(** Merging any bytes into a value, whether it succeeds or not: each byte adds at most a grain of the type. *)
Theorem c84_merge : forall c m t v bs, weight c (fst (merge m t v bs)) <= weight c v + grain c t * length bs.
Proof.
  intros c m t v bs. pose proof (merge_grows c m t (grain c t) (Nat.le_refl _) v bs). lia.
Qed.
Print Assumptions c84_merge.

(** Decoding: a default value and a grain for each byte read. *)
Theorem c84_decode : forall c m t bs v rest, deserialize m t bs = Ok (v, rest) ->
  weight c v + grain c t * length rest <= new_weight c t + grain c t * length bs.
Proof.
  intros c m t bs v rest E. unfold deserialize in E. pose proof (merge_grows c m t (grain c t) (Nat.le_refl _) (dflt t rt_default) bs) as G.
  destruct (merge m t (dflt t rt_default) bs) as [x [r|e| |]]; try discriminate E. injection E as <- <-. exact G.
Qed.
Print Assumptions c84_decode.

(** Replaying any bytes, whether it succeeds or not. *)
Theorem c84_replay : forall c m t v bs, weight c (fst (replay m t v bs)) <= weight c v + Nat.max (new_weight c t) (grain c t) * length bs.
Proof.
  intros c m t v bs. unfold replay. destruct (is_root v) as [[]|e| |]; cbn [fst]; try lia.
  assert (G1 : grows1 (reach c t) (weight c) (replay_step m t)) by (intros s b _; apply replay_step_grows; lia).
  pose proof (run_grows (reach c t) (weight c) _ G1 v bs) as G. destruct (run (replay_step m t) v bs) as [v' o]. cbn [ok_unit fst snd] in *. unfold reach in G. lia.
Qed.
Print Assumptions c84_replay.

(** The factor cannot be smaller: [n] bytes make [n] arrays of [k] numbers, so each of them makes an array. *)
Theorem c84_reached : forall c m k n v bs, v = VVec [] -> bs = repeat 0%N n ->
  exists v', merge m (TVec (TArr k (TInt U8))) v bs = (v', Ok []) /\
    weight c v' = weight c v + grain c (TVec (TArr k (TInt U8))) * length bs /\ grain c (TVec (TArr k (TInt U8))) = c + k * c.
Proof.
  intros c m k n v bs -> ->. set (d := VArr (repeat (VInt U8 0%Z) k)).
  assert (D : weight c d = c + k * c).
  { unfold d. cbn [weight]. f_equal. clear. induction k as [|k IH]; [reflexivity|]. cbn [repeat map sum weight]. rewrite IH. cbn. lia. }
  assert (Gr : grain c (TVec (TArr k (TInt U8))) = c + k * c).
  { cbn [grain]. unfold new_weight. cbn [dflt]. fold d. rewrite D. cbn [weight]. destruct k; lia. }
  assert (ST : forall l n, vec_step m Sized (merge m (TArr k (TInt U8))) d l (0%N :: repeat 0%N n) = (l ++ [d], Ok (repeat 0%N n))).
  { intros l j. unfold vec_step, de_nested, merge_nested. cbn [wtype_eqb negb]. unfold rd_nested.
    assert (E : uv_deserialize m 64 (0%N :: repeat 0%N j) = Ok (0%N, repeat 0%N j)) by (destruct m; reflexivity). rewrite E. cbn [bind].
    replace (splitN 0 (repeat 0%N j)) with (@nil N, repeat 0%N j) by (now destruct j). cbn [try]. unfold d at 1. cbn [merge].
    assert (Z : forall l, arr_loop m (wty (TInt U8)) (merge m (TInt U8)) (dflt (TInt U8) rt_default) l [] = (l, Ok [])) by (intros [|]; reflexivity).
    rewrite Z. reflexivity. }
  assert (R : forall i f l, i <= f -> De.loop f (vec_step m Sized (merge m (TArr k (TInt U8))) d) l (repeat 0%N i) = (l ++ repeat d i, Ok [])).
  { induction i as [|j IH]; intros [|f] l Lf; try (cbn; now rewrite app_nil_r); [lia|]. cbn [repeat De.loop]. rewrite ST. cbn [try]. rewrite IH by lia.
    now rewrite <- app_assoc. }
  exists (VVec (repeat d n)). rewrite Gr, repeat_length. split.
  - cbn [merge wty dflt]. fold d. unfold run. rewrite repeat_length, R by lia. reflexivity.
  - split; [|reflexivity]. cbn [weight map sum]. rewrite <- D.
    assert (S : forall j, sum (map (weight c) (repeat d j)) = weight c d * j) by (induction j as [|j IH]; [cbn; lia|cbn [repeat map sum]; rewrite IH; lia]).
    rewrite S. lia.
Qed.
Print Assumptions c84_reached.

(** What is thrown away is another matter: the buffer that a skipped field is read into has the capacity that the
    field announces.  A log of at most 13 bytes whose first entry has an unknown field, number 15, makes replay
    ask for any number of bytes below 2^63, and panic for a larger one. *)
Theorem c84_skip_refuted : forall m n, (n < 2 ^ 64)%N ->
  exists size rest, let bs := size :: 0%N :: 122%N :: rest in length bs <= 13 /\
    rd_tag m (122%N :: rest) = Ok (15%N, Sized, rest) /\ skip_request m Sized rest = Some n /\
    read_entry m bs = (if (n <? 2 ^ 63)%N then Ok (EUpdate [] [], []) else Panic).
Proof.
  intros m n L. set (sub := 0%N :: 122%N :: leb128 n). exists (lenN sub), (leb128 n). cbn zeta. fold sub.
  assert (T : rd_tag m (122%N :: leb128 n) = Ok (15%N, Sized, leb128 n)).
  { unfold rd_tag. change (122%N :: leb128 n) with (leb128 122 ++ leb128 n). rewrite uv_deserialize_leb by (cbn; lia). reflexivity. }
  assert (U : uv_deserialize m 64 (leb128 n) = Ok (n, [])).
  { rewrite <- (app_nil_r (leb128 n)) at 1. apply uv_deserialize_leb; [lia|exact L]. }
  assert (Ln : (lenN (leb128 n) <= 10)%N) by (apply (leb128_len_le n 9); cbn; lia).
  assert (Ls : (lenN sub <= 12)%N) by (unfold sub, lenN in *; cbn [length]; lia).
  split; [unfold lenN in Ls; cbn [length]; lia|]. split; [exact T|]. split; [unfold skip_request; now rewrite U|].
  unfold read_entry, de_nested, merge_nested. replace (wtype_eqb (wty tEntry) (wty tEntry)) with true by reflexivity. cbn [negb wty tEntry].
  unfold rd_nested. change (lenN sub :: sub) with ([lenN sub] ++ sub). rewrite <- (leb128_small (lenN sub)) by lia.
  rewrite uv_deserialize_leb by lia. cbn [bind].
  replace (splitN (lenN sub) sub) with (sub, @nil N).
  2: { rewrite <- (app_nil_r sub) at 3. now rewrite splitN_app. }
  cbn [try]. set (fs0 := [(fpl 0, VVec []); (fpl 1, VBytes [])]).
  assert (D : dflt tEntry rt_default = VEnum 0 true None fs0) by reflexivity. rewrite D. unfold tEntry.
  assert (T0 : uv_deserialize m 32 sub = Ok (0%N, 122%N :: leb128 n)).
  { unfold sub. change (0%N :: 122%N :: leb128 n) with (leb128 0 ++ 122%N :: leb128 n). apply uv_deserialize_leb; cbn; lia. }
  cbn [merge]. rewrite T0. cbn [try N.eqb]. unfold fs0. cbn [run]. unfold run. cbn [length De.loop].
  unfold struct_step at 1. rewrite T. cbn [try map merge_field]. cbn [fpl f_tag N.eqb Pos.eqb]. unfold rd_skip_field. rewrite U. cbn [bind].
  destruct (N.ltb_spec n (2 ^ 63)%N) as [Q|Q]; cbn [try bind]; [|reflexivity].
  change (splitN n []) with (@nil N, @nil N). destruct (leb128 n); reflexivity.
Qed.
Print Assumptions c84_skip_refuted.

(** The numbers that the input announces do not matter: a string that claims 2^63 - 1 bytes, three arrays of a hundred
    numbers from three bytes, the same where the vector claims to be longer; and a log of two entries of two bytes
    that each push such an array to a list. *)
Example c84_case :
  let arr := TArr 100 (TInt U8) in
  let big := TStruct (mkS true false) [(fpl 0, TStr); (fpl 1, TVec arr)] in
  let new := dflt big rt_default in
  let got (x : val * res bytes) := (weight 1 (fst x), match snd x with Ok _ => true | _ => false end) in
  new_weight 1 big = 3 /\ grain 1 big = 101 /\
  got (merge Release big new [2; 255; 255; 255; 255; 255; 255; 255; 255; 127; 65]%N) = (4, true) /\
  got (merge Release big new [10; 3; 0; 0; 0]%N) = (306, true) /\
  got (merge Release big new [10; 100; 0; 0; 0]%N) = (306, true) /\
  (let x := replay Release (TList arr) (dflt (TList arr) rt_default) [1; 8; 1; 8]%N in (weight 1 (fst x), snd x)) = (203, Ok tt).
Proof. vm_compute. repeat split. Qed.
