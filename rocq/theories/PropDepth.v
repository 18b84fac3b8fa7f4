(** C91: how deeply what is made from untrusted bytes is nested. *)
From Verif Require Import Base Varint WireFmt Utf8 Types Ser Spec De Log State StateSpec ValInd VarintProofs WireProofs SerProofs TypeProofs DeProofs RoundTrip
  LogProofs HandleProofs Weight WeightProofs Depth DepthProofs PropDe.
Local Open Scope nat_scope.

(** Merging any bytes into a value, whether it succeeds or not: what is new is no deeper than a default value and the number of bytes. *)
Theorem c91_merge : forall m t v bs, vdepth (fst (merge m t v bs)) <= Nat.max (vdepth v) (deepest t + length bs).
Proof. intros m t v bs. exact (proj1 (merge_nests m t (deepest t) (Nat.le_refl _) v bs)). Qed.
Print Assumptions c91_merge.

Theorem c91_decode : forall m t bs v rest, deserialize m t bs = Ok (v, rest) -> vdepth v <= Nat.max (new_depth t) (deepest t + length bs).
Proof.
  intros m t bs v rest E. unfold deserialize in E. pose proof (c91_merge m t (dflt t rt_default) bs) as G.
  destruct (merge m t (dflt t rt_default) bs) as [x [r|e| |]]; try discriminate E. injection E as <- <-. exact G.
Qed.
Print Assumptions c91_decode.

(** Replaying any bytes, whether it succeeds or not: an entry is as deep as its path and its payload are long, entries do not add up. *)
Theorem c91_entry : forall m t v bs e rest, read_entry m bs = Ok (e, rest) ->
  vdepth (fst (handle_entry m t e v)) <= Nat.max (vdepth v) (Nat.max (new_depth t) (deepest t) + (length bs - length rest)).
Proof.
  intros m t v bs e rest E. apply read_entry_all in E. pose proof (handle_nests m t (farthest t) (Nat.le_refl _) (entry_path e) (entry_kind e) (entry_key e) (entry_bytes e) v) as H.
  unfold handle_entry. unfold farthest in *. lia.
Qed.
Print Assumptions c91_entry.
Theorem c91_replay : forall m t v bs, vdepth (fst (replay m t v bs)) <= Nat.max (vdepth v) (Nat.max (new_depth t) (deepest t) + length bs).
Proof.
  intros m t v bs. unfold replay. destruct (is_root v) as [[]|e| |]; cbn [fst]; try lia.
  assert (G : nests1 (farthest t) vdepth (replay_step m t)).
  { intros s b _. unfold replay_step. destruct (read_entry m b) as [[e rest]|x| |] eqn:E; cbn [try fst snd left_over]; try lia.
    pose proof (c91_entry m t s b e rest E) as H. apply read_entry_all in E. fold (farthest t) in H.
    destruct (handle_entry m t e s) as [s' [u|x| |]]; cbn [fst snd left_over bind] in *; lia. }
  pose proof (run_nests (farthest t) vdepth _ G v bs) as [R _]. destruct (run (replay_step m t) v bs) as [v' o]. exact R.
Qed.
Print Assumptions c91_replay.

(** ** Reached *)

Lemma chain_ok n : ty_ok (tChain n) = true.
Proof. induction n as [|n IH]; [reflexivity|]. cbn [tChain ty_ok forallb f_tag fpl f_state]. now rewrite IH. Qed.
Lemma chain_wt n : wt (tChain n) (vChain n) = true.
Proof. induction n as [|n IH]; [reflexivity|]. cbn [tChain vChain]. rewrite wt_struct_eq. cbn [wt_fields wt]. now rewrite IH. Qed.
Lemma chain_lossless n : lossless (tChain n) (vChain n) = true.
Proof.
  apply lossless_and. induction n as [|n (W & I & K)]; [repeat split; reflexivity|]. split; [|split].
  - cbn [vChain writable forallb]. now rewrite W.
  - cbn [vChain ints_safe forallb]. now rewrite I.
  - cbn [tChain vChain keys_in]. now rewrite K.
Qed.
Lemma chain_norm n : forall r, norm r (vChain n) = vChain n.
Proof. induction n as [|n IH]; intros r; [reflexivity|]. cbn [vChain norm map]. now rewrite IH. Qed.
Lemma chain_depth n : vdepth (vChain n) = 2 * n + 1.
Proof. induction n as [|n IH]; [reflexivity|]. cbn [vChain vdepth map most snd]. rewrite IH. lia. Qed.
Lemma chain_enc n : (n < 2 ^ 28)%nat -> length (enc (vChain n)) <= 11 * n.
Proof.
  induction n as [|n IH]; intros L; [cbn; lia|]. specialize (IH ltac:(lia)).
  set (c := enc (vChain n)) in *.
  assert (E : enc (vChain (S n)) = 2%N :: leb128 (lenN (leb128 (lenN c) ++ c)) ++ leb128 (lenN c) ++ c).
  { cbn [vChain enc flat_map]. fold c. unfold delimited at 1 2. cbn [vwty]. replace (vwty (vChain n)) with Sized by (now destruct n). cbn [left_out].
    destruct (leb128 (lenN c) ++ c) as [|x l] eqn:Q; [apply app_eq_nil in Q; destruct Q as [Q _]; now apply leb128_nonempty in Q|].
    rewrite <- Q. unfold enc_tagged, delimited. cbn [vwty]. replace (vwty (vChain n)) with Sized by (now destruct n). rewrite app_nil_r. reflexivity. }
  assert (P28 : 2 ^ 28 = N.to_nat (2 ^ 28)) by (rewrite N2Nat.inj_pow; reflexivity).
  assert (B : forall l : bytes, (lenN l < 2 ^ 35)%N -> length (leb128 (lenN l)) <= 5).
  { intros l H. pose proof (leb128_len_le (lenN l) 4 H) as Q. unfold lenN in Q at 1. lia. }
  assert (C : (lenN c < 2 ^ 33)%N) by (unfold lenN; lia).
  pose proof (B c ltac:(lia)) as B1. assert (B2 : length (leb128 (lenN (leb128 (lenN c) ++ c))) <= 5).
  { apply B. unfold lenN in *. rewrite app_length. lia. }
  rewrite E. cbn [length]. rewrite !app_length. lia.
Qed.
Lemma chain_shallow n : new_depth (tChain n) <= 2 /\ deepest (tChain n) <= 2.
Proof.
  induction n as [|n [I1 I2]]; [cbn; lia|]. unfold new_depth in *. split; [cbn; lia|]. cbn [tChain deepest map most]. unfold new_depth. cbn [dflt vdepth]. lia.
Qed.

(** A type that holds itself can be nested as deeply as there are bytes, up to a factor: what it would take is in the input,
    not in the type.  Eleven bytes go two deeper here, however deep that is already. *)
Theorem c91_reached : forall m n, (n < 2 ^ 28)%nat -> exists bs, length bs <= 11 * n /\
  ty_ok (tChain n) = true /\ deserialize m (tChain n) bs = Ok (vChain n, []) /\ vdepth (vChain n) = 2 * n + 1 /\
  Nat.max (new_depth (tChain n)) (deepest (tChain n)) <= 2.
Proof.
  intros m n L. pose proof (chain_enc n L) as E. exists (enc (vChain n)). split; [exact E|]. split; [apply chain_ok|].
  assert (P28 : 2 ^ 28 = N.to_nat (2 ^ 28)) by (rewrite N2Nat.inj_pow; reflexivity).
  assert (S : (lenN (enc (vChain n)) < 2 ^ 32)%N) by (unfold lenN; lia).
  destruct (c10_round_trip m m (tChain n) (vChain n) fresh_store (chain_ok n) (chain_wt n) (chain_lossless n) S) as (b & v & Eb & Ed & -> & _).
  pose proof (chain_lossless n) as X. apply lossless_and in X. destruct X as (W & _).
  destruct (large_map_keys m (tChain n) (vChain n) fresh_store (chain_ok n) (chain_wt n) S) as [Q _]. rewrite (Q W) in Eb. injection Eb as <-.
  rewrite chain_norm in Ed. split; [exact Ed|]. split; [apply chain_depth|]. pose proof (chain_shallow n). lia.
Qed.
Print Assumptions c91_reached.

(** A log entry with a path of two, one that pushes to a list in a list; a chain of three from nine bytes. *)
Example c91_case :
  let t := TList (TList TBool) in
  (let x := replay Release t (dflt t rt_default) [1; 8; 7; 8; 2; 1; 0; 10; 1; 1]%N in (vdepth (fst x), snd x)) = (3, Ok tt) /\
  enc (vChain 3) = [2; 7; 6; 2; 4; 3; 2; 1; 0]%N /\ vdepth (vChain 3) = 7 /\ new_depth (tChain 3) = 2 /\ deepest (tChain 3) = 2.
Proof. vm_compute. repeat split. Qed.
