(** Proofs about the varint codec. *)
From Verif Require Import Base Varint WireFmt Types Spec.

(** * [leb128] *)

Lemma leb128_aux_fuel : forall f1 f2 n,
  n < 2 ^ N.of_nat f1 -> n < 2 ^ N.of_nat f2 -> leb128_aux f1 n = leb128_aux f2 n.
Proof.
  induction f1 as [|f1 IH]; intros f2 n H1 H2.
  - assert (n = 0) by (change (2 ^ N.of_nat 0) with 1 in H1; lia). subst.
    destruct f2; reflexivity.
  - destruct f2 as [|f2].
    + assert (n = 0) by (change (2 ^ N.of_nat 0) with 1 in H2; lia). subst. reflexivity.
    + cbn [leb128_aux]. destruct (n <? 128) eqn:E; [reflexivity|].
      f_equal. rewrite Nat2N.inj_succ, N.pow_succ_r' in H1, H2.
      apply IH; apply N.div_lt_upper_bound; lia.
Qed.

Lemma size_nat_bound n : n < 2 ^ N.of_nat (N.size_nat n).
Proof.
  destruct n as [|p]; [reflexivity|].
  rewrite <- N.size_gt at 1 || idtac.
  pose proof (N.size_gt (N.pos p)) as H.
  replace (N.of_nat (N.size_nat (N.pos p))) with (N.size (N.pos p)); [exact H|].
  cbn. clear H. induction p; cbn in *; try rewrite IHp; lia.
Qed.

Lemma leb128_eq n :
  leb128 n = if n <? 128 then [n] else (128 + n mod 128) :: leb128 (n / 128).
Proof.
  unfold leb128.
  destruct (n <? 128) eqn:E.
  - destruct (N.size_nat n); cbn [leb128_aux]; [reflexivity|]. now rewrite E.
  - pose proof (size_nat_bound n) as B. pose proof (size_nat_bound (n / 128)) as B'.
    destruct (N.size_nat n) as [|f].
    + change (2 ^ N.of_nat 0) with 1 in B. lia.
    + cbn [leb128_aux]. rewrite E. f_equal.
      apply leb128_aux_fuel; [|exact B'].
      rewrite Nat2N.inj_succ, N.pow_succ_r' in B.
      apply N.div_lt_upper_bound; lia.
Qed.

(** Induction along [leb128]. *)
Lemma leb_ind (P : N -> Prop) :
  (forall n, n < 128 -> P n) -> (forall n, 128 <= n -> P (n / 128) -> P n) -> forall n, P n.
Proof.
  intros Hb Hs. apply (well_founded_induction N.lt_wf_0).
  intros n IH. destruct (N.lt_ge_cases n 128) as [H|H]; [auto|].
  apply Hs; [exact H|]. apply IH. apply N.div_lt; lia.
Qed.

Lemma leb128_small n : n < 128 -> leb128 n = [n].
Proof. intros H. rewrite leb128_eq. destruct (n <? 128) eqn:E; [reflexivity|lia]. Qed.

Lemma leb128_big n : 128 <= n -> leb128 n = (128 + n mod 128) :: leb128 (n / 128).
Proof. intros H. rewrite leb128_eq. destruct (n <? 128) eqn:E; [lia|reflexivity]. Qed.

Lemma leb128_ok n : bytes_ok (leb128 n).
Proof.
  induction n as [n H|n H IH] using leb_ind.
  - rewrite leb128_small by exact H. repeat constructor. lia.
  - rewrite leb128_big by exact H. constructor; [|exact IH].
    pose proof (N.mod_lt n 128). lia.
Qed.

Lemma leb128_nonempty n : leb128 n <> [].
Proof. rewrite leb128_eq. destruct (n <? 128); discriminate. Qed.

Lemma leb128_len_pos n : 1 <= lenN (leb128 n).
Proof.
  pose proof (leb128_nonempty n). unfold lenN. destruct (leb128 n); [congruence|cbn; lia].
Qed.

(** Length: the number of base-128 digits. *)
Lemma leb128_len_le n k : n < 128 ^ N.succ k -> lenN (leb128 n) <= N.succ k.
Proof.
  revert k. induction n as [n H|n H IH] using leb_ind; intros k Hk.
  - rewrite leb128_small by exact H. cbn. lia.
  - rewrite leb128_big by exact H.
    destruct (N.eq_dec k 0) as [->|Hk0]; [change (128 ^ N.succ 0) with 128 in Hk; lia|].
    specialize (IH (N.pred k)).
    rewrite N.succ_pred in IH by exact Hk0.
    unfold lenN in *. cbn [length].
    assert (n / 128 < 128 ^ k).
    { apply N.div_lt_upper_bound; [lia|]. rewrite <- N.pow_succ_r'. exact Hk. }
    specialize (IH H0). lia.
Qed.

Lemma leb128_len_ge n k : 128 ^ k <= n -> N.succ k <= lenN (leb128 n).
Proof.
  revert k. induction n as [n H|n H IH] using leb_ind; intros k Hk.
  - rewrite leb128_small by exact H.
    destruct (N.eq_dec k 0) as [->|Hk0]; [cbn; lia|].
    assert (128 ^ 1 <= 128 ^ k) by (apply N.pow_le_mono_r; lia).
    change (128 ^ 1) with 128 in *. lia.
  - rewrite leb128_big by exact H.
    destruct (N.eq_dec k 0) as [->|Hk0]; [unfold lenN; cbn [length]; lia|].
    assert (128 ^ N.pred k <= n / 128).
    { apply N.div_le_lower_bound; [lia|]. rewrite <- N.pow_succ_r'.
      rewrite N.succ_pred by exact Hk0. exact Hk. }
    specialize (IH _ H0). rewrite N.succ_pred in IH by exact Hk0.
    unfold lenN in *. cbn [length]. lia.
Qed.

Lemma leb128_len_eq n k : 128 ^ k <= n -> n < 128 ^ N.succ k -> lenN (leb128 n) = N.succ k.
Proof. intros. apply N.le_antisymm; [now apply leb128_len_le|now apply leb128_len_ge]. Qed.

(** * Unsigned serialization *)

Lemma high_bits_zero bits v : v < 2 ^ bits -> 7 <= bits ->
  (N.land v (N.ldiff (N.ones bits) 127) =? 0) = (v <? 128).
Proof.
  intros Hv Hb.
  assert (E : N.land v (N.ldiff (N.ones bits) 127) = N.ldiff v (N.ones 7)).
  { apply N.bits_inj. intros i. rewrite N.land_spec, !N.ldiff_spec.
    change 127 with (N.ones 7).
    destruct (N.lt_ge_cases i bits) as [Hi|Hi].
    - rewrite N.ones_spec_low with (m := i) (n := bits) by exact Hi. reflexivity.
    - destruct (N.eq_dec v 0) as [->|Hv0]; [rewrite !N.bits_0; reflexivity|].
      rewrite (N.bits_above_log2 v i); [reflexivity|].
      apply N.log2_lt_pow2 in Hv; [lia|]. lia. }
  rewrite E, N.ldiff_ones_r, N.shiftl_mul_pow2, N.shiftr_div_pow2.
  change (2 ^ 7) with 128.
  destruct (v <? 128) eqn:E1.
  - rewrite N.div_small by lia. reflexivity.
  - assert (1 <= v / 128) by (apply N.div_le_lower_bound; lia).
    apply N.eqb_neq. lia.
Qed.

Lemma cont_byte v : N.lor (N.land (v mod 256) 127) 128 = 128 + v mod 128.
Proof.
  change 127 with (N.ones 7). rewrite N.land_ones. change (2 ^ 7) with 128.
  replace (v mod 256 mod 128) with (v mod 128).
  2:{ zify; lia. }
  pose proof (N.mod_lt v 128). set (x := v mod 128) in *.
  assert (Hx : x < 128) by lia. clearbody x. clear H.
  rewrite N.lor_comm.
  rewrite <- N.lxor_lor.
  - rewrite <- N.add_nocarry_lxor; [reflexivity|].
    apply N.bits_inj. intros i. rewrite N.land_spec, N.bits_0.
    change 128 with (2 ^ 7). rewrite N.pow2_bits_eqb.
    destruct (7 =? i) eqn:Ei; [|reflexivity]. apply N.eqb_eq in Ei. subst i.
    destruct (N.eq_dec x 0) as [->|]; [reflexivity|].
    rewrite N.bits_above_log2; [reflexivity|].
    change 128 with (2 ^ 7) in Hx. apply N.log2_lt_pow2 in Hx; lia.
  - apply N.bits_inj. intros i. rewrite N.land_spec, N.bits_0.
    change 128 with (2 ^ 7). rewrite N.pow2_bits_eqb.
    destruct (7 =? i) eqn:Ei; [|reflexivity]. apply N.eqb_eq in Ei. subst i.
    destruct (N.eq_dec x 0) as [->|]; [reflexivity|].
    rewrite N.bits_above_log2; [reflexivity|].
    change 128 with (2 ^ 7) in Hx. apply N.log2_lt_pow2 in Hx; lia.
Qed.

Lemma uv_ser_loop_spec bits : 7 <= bits -> forall fuel v,
  v < 2 ^ bits -> v < 128 ^ N.of_nat fuel -> (0 < fuel)%nat ->
  uv_ser_loop fuel bits v = Ok (leb128 v).
Proof.
  intros Hb. induction fuel as [|fuel IH]; intros v Hv Hf Hp; [lia|].
  cbn [uv_ser_loop]. rewrite high_bits_zero by assumption.
  rewrite leb128_eq. destruct (v <? 128) eqn:E.
  - rewrite N.mod_small by lia. reflexivity.
  - rewrite N.shiftr_div_pow2. change (2 ^ 7) with 128.
    rewrite Nat2N.inj_succ, N.pow_succ_r' in Hf.
    assert (v / 128 < 128 ^ N.of_nat fuel) by (apply N.div_lt_upper_bound; lia).
    destruct fuel as [|fuel'].
    + change (128 ^ N.of_nat 0) with 1 in *. lia.
    + rewrite IH; [|apply N.div_lt_upper_bound; lia|assumption|lia].
      cbn [bind]. now rewrite cont_byte.
Qed.

Lemma uv_serialize_spec bits v : 7 <= bits <= 64 -> v < 2 ^ bits ->
  uv_serialize bits v = Ok (leb128 v).
Proof.
  intros Hb Hv. apply uv_ser_loop_spec; [lia|exact Hv| |lia].
  eapply N.lt_le_trans; [exact Hv|].
  change 128 with (2 ^ 7). rewrite <- N.pow_mul_r. apply N.pow_le_mono_r; lia.
Qed.

(** * Unsigned deserialization *)

Lemma lor_shift value x off : value < 2 ^ off -> N.lor value (x * 2 ^ off) = value + x * 2 ^ off.
Proof.
  intros H.
  assert (L : N.land value (x * 2 ^ off) = 0).
  { apply N.bits_inj. intros i. rewrite N.land_spec, N.bits_0.
    destruct (N.lt_ge_cases i off).
    - rewrite N.mul_pow2_bits_low by assumption. now rewrite andb_false_r.
    - destruct (N.eq_dec value 0) as [->|]; [now rewrite N.bits_0|].
      rewrite (N.bits_above_log2 value); [reflexivity|].
      apply N.log2_lt_pow2 in H; lia. }
  rewrite <- N.lxor_lor by exact L. now rewrite <- N.add_nocarry_lxor by exact L.
Qed.

Lemma land127 b : N.land b 127 = b mod 128.
Proof. change 127 with (N.ones 7). now rewrite N.land_ones. Qed.

Lemma land128 b : b < 256 -> (N.land b 128 =? 0) = (b <? 128).
Proof.
  intros H.
  assert (E : N.land b 128 = if b <? 128 then 0 else 128).
  { apply N.bits_inj. intros i. rewrite N.land_spec.
    change 128 with (2 ^ 7) at 1. rewrite N.pow2_bits_eqb.
    destruct (b <? 128) eqn:E.
    - rewrite N.bits_0. destruct (7 =? i) eqn:Ei; [|now rewrite andb_false_r].
      apply N.eqb_eq in Ei. subst i.
      destruct (N.eq_dec b 0) as [->|]; [reflexivity|].
      rewrite (N.bits_above_log2 b); [reflexivity|].
      assert (b < 2 ^ 7) by (change (2 ^ 7) with 128; lia).
      apply N.log2_lt_pow2 in H0; lia.
    - change 128 with (2 ^ 7). rewrite N.pow2_bits_eqb.
      destruct (7 =? i) eqn:Ei; [|now rewrite andb_false_r].
      apply N.eqb_eq in Ei. subst i. rewrite andb_true_r.
      rewrite N.testbit_spec' || idtac.
      apply N.testbit_true. change (2 ^ 7) with 128.
      assert (b / 128 = 1).
      { symmetry. apply N.div_unique with (b - 128); lia. }
      rewrite H0. reflexivity. }
  rewrite E. destruct (b <? 128); reflexivity.
Qed.

(** Decoding arbitrary bytes, general state of the loop; in-range part. *)
Lemma uv_de_loop_prefix m bits : 0 < bits -> forall bs value off p rest,
  bytes_ok bs -> varint_prefix bs = Some (p, rest) ->
  off + 7 * (lenN p - 1) < bits -> value < 2 ^ off ->
  uv_de_loop m bits value off bs = Ok ((value + groups_value p * 2 ^ off) mod 2 ^ bits, rest).
Proof.
  intros Hb. induction bs as [|b bs IH]; intros value off p rest Hok Hp Hoff Hv;
    cbn in Hp; [discriminate|].
  inversion Hok as [|? ? Hb256 Hok']; subst.
  cbn [uv_de_loop].
  rewrite land128 by exact Hb256. rewrite land127, N.shiftl_mul_pow2.
  assert (Hoff' : off <? bits = true) by lia. rewrite Hoff'.
  assert (Estep : N.lor value (b mod 128 * 2 ^ off mod 2 ^ bits)
                  = (value + b mod 128 * 2 ^ off) mod 2 ^ bits).
  { replace (2 ^ bits) with (2 ^ (bits - off) * 2 ^ off)
      by (rewrite <- N.pow_add_r; f_equal; lia).
    assert (N1 : 2 ^ off <> 0) by (apply N.pow_nonzero; lia).
    assert (N2 : 2 ^ (bits - off) <> 0) by (apply N.pow_nonzero; lia).
    rewrite N.mul_mod_distr_r by assumption.
    rewrite lor_shift by assumption.
    rewrite N.add_comm.
    symmetry.
    rewrite (N.add_comm value).
    assert (Q : (b mod 128 * 2 ^ off + value) =
                (b mod 128 mod 2 ^ (bits - off) * 2 ^ off + value)
                + (b mod 128 / 2 ^ (bits - off)) * (2 ^ (bits - off) * 2 ^ off)).
    { pose proof (N.div_mod (b mod 128) _ N2) as D.
      set (q := b mod 128 / 2 ^ (bits - off)) in *.
      set (r := b mod 128 mod 2 ^ (bits - off)) in *.
      rewrite D. clearbody q r. ring. }
    rewrite Q, N.mod_add by (apply N.neq_mul_0; split; assumption).
    apply N.mod_small.
    pose proof (N.mod_lt (b mod 128) _ N2) as L.
    set (r := b mod 128 mod 2 ^ (bits - off)) in *. clearbody r.
    nia. }
  rewrite Estep.
  destruct (b <? 128) eqn:E.
  - inversion Hp; subst. cbn [groups_value]. do 4 f_equal. lia.
  - destruct (varint_prefix bs) as [[p' r']|] eqn:Hp'; [|discriminate].
    inversion Hp; subst. clear Hp.
    assert (Hp1 : 1 <= lenN p').
    { unfold lenN. destruct bs; cbn in Hp'; [discriminate|].
      destruct (n <? 128); [inversion Hp'; cbn; lia|].
      destruct (varint_prefix bs) as [[? ?]|]; inversion Hp'; cbn; lia. }
    unfold lenN in Hoff, Hp1. cbn [length] in Hoff.
    assert (Hsmall : value + b mod 128 * 2 ^ off < 2 ^ (off + 7)).
    { rewrite N.pow_add_r. change (2 ^ 7) with 128.
      pose proof (N.mod_lt b 128). nia. }
    assert (Hsmall' : value + b mod 128 * 2 ^ off < 2 ^ bits).
    { eapply N.lt_le_trans; [exact Hsmall|]. apply N.pow_le_mono_r; lia. }
    rewrite (N.mod_small _ _ Hsmall').
    rewrite (IH _ _ p' rest Hok' eq_refl).
    + do 3 f_equal. cbn [groups_value]. rewrite N.pow_add_r. change (2 ^ 7) with 128. ring.
    + unfold lenN. lia.
    + exact Hsmall.
Qed.

(** Beyond the width: panic under overflow checks. *)
Lemma uv_de_loop_overlong_debug bits : 0 < bits -> forall bs value off,
  bytes_ok bs ->
  (match varint_prefix bs with Some (p, _) => bits <= off + 7 * (lenN p - 1)
                             | None => bits <= off + 7 * (lenN bs - 1) /\ bs <> [] end) ->
  uv_de_loop Debug bits value off bs = Panic.
Proof.
  intros Hb. induction bs as [|b bs IH]; intros value off Hok H.
  - cbn in H. destruct H; congruence.
  - inversion Hok as [|? ? Hb256 Hok']; subst. cbn [uv_de_loop].
    rewrite land128 by exact Hb256.
    destruct (off <? bits) eqn:Eo; [|reflexivity].
    cbn in H. destruct (b <? 128) eqn:E.
    + cbn in H. lia.
    + apply IH; [exact Hok'|].
      destruct (varint_prefix bs) as [[p r]|] eqn:Hp.
      * unfold lenN in *. cbn [length] in H.
        assert (1 <= length p)%nat.
        { destruct bs; cbn in Hp; [discriminate|].
          destruct (n <? 128); [inversion Hp; cbn; lia|].
          destruct (varint_prefix bs) as [[? ?]|]; inversion Hp; cbn; lia. }
        lia.
      * unfold lenN in *. cbn [length] in H. destruct H as [H _].
        destruct bs; [cbn in H; lia|]. cbn [length] in *. split; [lia|discriminate].
Qed.

Lemma uv_de_loop_none m bits : 0 < bits -> forall bs value off,
  bytes_ok bs -> varint_prefix bs = None ->
  (m = Release \/ off + 7 * (lenN bs - 1) < bits \/ bs = []) ->
  uv_de_loop m bits value off bs = Err UnexpectedEof.
Proof.
  intros Hb. induction bs as [|b bs IH]; intros value off Hok Hp Hm; [reflexivity|].
  inversion Hok as [|? ? Hb256 Hok']; subst. cbn [uv_de_loop].
  rewrite land128 by exact Hb256.
  cbn in Hp. destruct (b <? 128); [discriminate|].
  destruct (varint_prefix bs) as [[? ?]|]; [discriminate|].
  unfold lenN in Hm. cbn [length] in Hm.
  destruct (off <? bits) eqn:Eo.
  - apply IH; [assumption|reflexivity|]. destruct Hm as [?|[?|?]]; [auto| |discriminate].
    destruct bs; [auto|]. right. left. unfold lenN. cbn [length] in *. lia.
  - destruct m; [destruct Hm as [?|[?|?]]; [discriminate|lia|discriminate]|].
    apply IH; auto.
Qed.

Lemma uv_de_loop_release bits : 0 < bits -> forall bs value off p rest,
  bytes_ok bs -> varint_prefix bs = Some (p, rest) -> value < 2 ^ bits ->
  exists x, uv_de_loop Release bits value off bs = Ok (x, rest) /\ x < 2 ^ bits.
Proof.
  intros Hb. induction bs as [|b bs IH]; intros value off p rest Hok Hp Hv; cbn in Hp; [discriminate|].
  inversion Hok as [|? ? Hb256 Hok']; subst. cbn [uv_de_loop].
  rewrite land128 by exact Hb256.
  assert (G : forall sh, exists x,
    (if b <? 128 then Ok (N.lor value (N.shiftl (N.land b 127) sh mod 2 ^ bits), bs)
     else uv_de_loop Release bits (N.lor value (N.shiftl (N.land b 127) sh mod 2 ^ bits)) (off + 7) bs)
    = Ok (x, rest) /\ x < 2 ^ bits).
  { intros sh.
    assert (Hl : N.lor value (N.shiftl (N.land b 127) sh mod 2 ^ bits) < 2 ^ bits).
    { pose proof (N.mod_lt (N.shiftl (N.land b 127) sh) (2 ^ bits)) as L.
      assert (2 ^ bits <> 0) by (apply N.pow_nonzero; lia). specialize (L H).
      set (y := N.shiftl (N.land b 127) sh mod 2 ^ bits) in *. clearbody y.
      destruct (N.eq_dec (N.lor value y) 0) as [->|Hz]; [lia|].
      apply N.log2_lt_pow2; [lia|].
      rewrite N.log2_lor. 
      destruct (N.eq_dec value 0) as [->|]; destruct (N.eq_dec y 0) as [->|]; cbn [N.log2];
        try (rewrite N.lor_0_l in Hz); try lia;
        repeat match goal with
        | |- N.max _ _ < _ => apply N.max_lub_lt
        | |- N.log2 _ < _ => apply N.log2_lt_pow2; lia
        | |- 0 < _ => lia
        end. }
    destruct (b <? 128) eqn:E.
    - inversion Hp; subst. eexists. split; [reflexivity|exact Hl].
    - destruct (varint_prefix bs) as [[p' r']|] eqn:Hp'; [|discriminate].
      inversion Hp; subst. apply (IH _ _ p' rest Hok' eq_refl Hl). }
  destruct (off <? bits); apply G.
Qed.

Lemma varint_prefix_leb n rest : varint_prefix (leb128 n ++ rest) = Some (leb128 n, rest).
Proof.
  induction n as [n H|n H IH] using leb_ind.
  - rewrite leb128_small by exact H. cbn. destruct (n <? 128) eqn:E; [reflexivity|lia].
  - rewrite leb128_big by exact H. cbn [app varint_prefix].
    destruct (128 + n mod 128 <? 128) eqn:E; [lia|]. now rewrite IH.
Qed.

Lemma groups_value_leb n : groups_value (leb128 n) = n.
Proof.
  induction n as [n H|n H IH] using leb_ind.
  - rewrite leb128_small by exact H. cbn. rewrite N.mod_small by lia. lia.
  - rewrite leb128_big by exact H. cbn [groups_value]. rewrite IH.
    pose proof (N.mod_lt n 128). 
    replace ((128 + n mod 128) mod 128) with (n mod 128).
    + pose proof (N.div_mod n 128). lia.
    + replace (128 + n mod 128) with (n mod 128 + 1 * 128) by lia.
      rewrite N.mod_add by lia. now rewrite N.mod_mod by lia.
Qed.

Lemma bytes_ok_app a b : bytes_ok (a ++ b) <-> bytes_ok a /\ bytes_ok b.
Proof. apply Forall_app. Qed.

(** The decoder depends on the bytes up to the end of the varint only, so the
    bytes behind need not even be bytes. *)
Lemma uv_de_loop_app m bits value off p rest : 
  varint_prefix p = Some (p, []) ->
  uv_de_loop m bits value off (p ++ rest) =
  match uv_de_loop m bits value off p with Ok (x, _) => Ok (x, rest) | r => r end \/ ~ bytes_ok p.
Proof.
  revert value off. induction p as [|b p IH]; intros value off Hp; [discriminate|].
  cbn in Hp. destruct (b <? 256) eqn:E256.
  2:{ right. intros H. inversion H; subst. lia. }
  cbn [app uv_de_loop]. rewrite land128 by lia.
  destruct (b <? 128) eqn:E.
  - inversion Hp. subst. left. destruct (off <? bits); [reflexivity|]. destruct m; reflexivity.
  - destruct (varint_prefix p) as [[p' r']|] eqn:Hp'; [|discriminate].
    inversion Hp; subst.
    assert (D : bytes_ok p \/ ~ bytes_ok p).
    { destruct (forallb (fun b => b <? 256) p) eqn:F.
      - left. rewrite forallb_forall in F. apply Forall_forall. intros x Hx.
        specialize (F x Hx). lia.
      - right. intros H. unfold bytes_ok in H. rewrite Forall_forall in H.
        assert (forallb (fun b => b <? 256) p = true).
        { apply forallb_forall. intros x Hx. specialize (H x Hx). lia. }
        congruence. }
    destruct D as [D|D].
    2:{ right. intros H. inversion H; subst. auto. }
    left. destruct (off <? bits).
    + destruct (IH (N.lor value (N.shiftl (N.land b 127) off mod 2 ^ bits)) (off + 7) eq_refl); [auto|tauto].
    + destruct m; [reflexivity|].
      destruct (IH (N.lor value (N.shiftl (N.land b 127) (off mod bits) mod 2 ^ bits)) (off + 7) eq_refl); [auto|tauto].
Qed.

Lemma uv_deserialize_leb m bits n rest : 0 < bits -> n < 2 ^ bits ->
  uv_deserialize m bits (leb128 n ++ rest) = Ok (n, rest).
Proof.
  intros Hb Hn. unfold uv_deserialize.
  pose proof (varint_prefix_leb n []) as P. rewrite app_nil_r in P.
  destruct (uv_de_loop_app m bits 0 0 (leb128 n) rest P) as [E|E];
    [|exfalso; apply E, leb128_ok].
  rewrite E. rewrite (uv_de_loop_prefix m bits Hb (leb128 n) 0 0 (leb128 n) []).
  - rewrite groups_value_leb. change (2 ^ 0) with 1. rewrite N.mod_small by lia.
    do 2 f_equal. lia.
  - apply leb128_ok.
  - exact P.
  - destruct (N.eq_dec n 0) as [->|Hn0]; [cbn; lia|].
    destruct (N.lt_ge_cases 0 (lenN (leb128 n) - 1)) as [G|G]; [|lia].
    (* if 7*(len-1) >= bits then n >= 128^(len-1) >= 2^bits *)
    destruct (N.lt_ge_cases (0 + 7 * (lenN (leb128 n) - 1)) bits) as [?|C]; [assumption|].
    exfalso.
    assert (2 ^ bits <= 128 ^ (lenN (leb128 n) - 1)).
    { change 128 with (2 ^ 7). rewrite <- N.pow_mul_r. apply N.pow_le_mono_r; lia. }
    assert (128 ^ (lenN (leb128 n) - 1) <= n).
    { destruct (N.le_gt_cases (128 ^ (lenN (leb128 n) - 1)) n) as [?|L]; [assumption|].
      replace (lenN (leb128 n) - 1) with (N.succ (lenN (leb128 n) - 2)) in L by lia.
      apply leb128_len_le in L. lia. }
    lia.
  - change (2 ^ 0) with 1. lia.
Qed.

(** Evaluates the powers of two that occur below. *)
Ltac pows :=
  change (2 ^ 7) with 128 in *;
  change (2 ^ 7)%Z with 128%Z in *;
  change (2 ^ 8) with 256 in *;
  change (2 ^ 8)%Z with 256%Z in *;
  change (2 ^ 14) with 16384 in *;
  change (2 ^ 14)%Z with 16384%Z in *;
  change (2 ^ 16) with 65536 in *;
  change (2 ^ 16)%Z with 65536%Z in *;
  change (2 ^ 21) with 2097152 in *;
  change (2 ^ 21)%Z with 2097152%Z in *;
  change (2 ^ 28) with 268435456 in *;
  change (2 ^ 28)%Z with 268435456%Z in *;
  change (2 ^ 31) with 2147483648 in *;
  change (2 ^ 31)%Z with 2147483648%Z in *;
  change (2 ^ 32) with 4294967296 in *;
  change (2 ^ 32)%Z with 4294967296%Z in *;
  change (2 ^ 35) with 34359738368 in *;
  change (2 ^ 35)%Z with 34359738368%Z in *;
  change (2 ^ 42) with 4398046511104 in *;
  change (2 ^ 42)%Z with 4398046511104%Z in *;
  change (2 ^ 49) with 562949953421312 in *;
  change (2 ^ 49)%Z with 562949953421312%Z in *;
  change (2 ^ 56) with 72057594037927936 in *;
  change (2 ^ 56)%Z with 72057594037927936%Z in *;
  change (2 ^ 63) with 9223372036854775808 in *;
  change (2 ^ 63)%Z with 9223372036854775808%Z in *;
  change (2 ^ 64) with 18446744073709551616 in *;
  change (2 ^ 64)%Z with 18446744073709551616%Z in *;
  change (2 ^ Z.of_N 8)%Z with 256%Z in *;
  change (2 ^ Z.of_N 16)%Z with 65536%Z in *;
  change (2 ^ Z.of_N 32)%Z with 4294967296%Z in *;
  change (2 ^ Z.of_N 64)%Z with 18446744073709551616%Z in *;
  change (128 ^ 0) with 1 in *;
  change (128 ^ 1) with 128 in *;
  change (128 ^ 2) with 16384 in *;
  change (128 ^ 3) with 2097152 in *;
  change (128 ^ 4) with 268435456 in *;
  change (128 ^ 5) with 34359738368 in *;
  change (128 ^ 6) with 4398046511104 in *;
  change (128 ^ 7) with 562949953421312 in *;
  change (128 ^ 8) with 72057594037927936 in *;
  change (128 ^ 9) with 9223372036854775808 in *;
  change (128 ^ 10) with 1180591620717411303424 in *;
  change (2 ^ (14 + 14))%Z with 268435456%Z in *;
  change (2 ^ (21 + 28))%Z with 562949953421312%Z in *;
  change (2 ^ (14 + 28))%Z with 4398046511104%Z in *;
  change (2 ^ (14 + 14 + 28))%Z with 72057594037927936%Z in *.

(** * Sizes *)

Lemma land_high_zero v k : (0 <= k)%Z ->
  (Z.land v (Z.shiftl (-1) k) =? 0)%Z = ((0 <=? v) && (v <? 2 ^ k))%Z.
Proof.
  intros Hk.
  assert (E : Z.land v (Z.shiftl (-1) k) = (Z.shiftl (Z.shiftr v k) k)).
  { apply Z.bits_inj'. intros i Hi. rewrite Z.land_spec.
    destruct (Z.lt_ge_cases i k) as [L|G].
    - rewrite !Z.shiftl_spec_low by assumption. now rewrite andb_false_r.
    - rewrite !Z.shiftl_spec by assumption. rewrite Z.shiftr_spec by lia.
      rewrite Z.bits_m1 by lia. rewrite andb_true_r. f_equal. lia. }
  rewrite E, Z.shiftl_mul_pow2, Z.shiftr_div_pow2 by assumption.
  assert (P : (0 < 2 ^ k)%Z) by (apply Z.pow_pos_nonneg; lia).
  pose proof (Z.div_mod v (2 ^ k)) as D. pose proof (Z.mod_pos_bound v (2 ^ k) P) as M.
  set (q := (v / 2 ^ k)%Z) in *. set (r := (v mod 2 ^ k)%Z) in *. set (p := (2 ^ k)%Z) in *.
  clearbody q r p.
  destruct ((0 <=? v) && (v <? p))%Z eqn:B.
  - assert (q = 0%Z) by nia. subst q. apply Z.eqb_eq. lia.
  - apply Z.eqb_neq. intros C. assert (q = 0%Z) by nia. subst q. lia.
Qed.

Lemma as_signed_small bits n : 0 < bits -> n < 2 ^ (bits - 1) -> as_signed bits n = Z.of_N n.
Proof.
  intros Hb Hn. unfold as_signed, swrap.
  assert (Ep : (2 ^ Z.of_N bits = 2 * 2 ^ Z.of_N (bits - 1))%Z).
  { rewrite <- Z.pow_succ_r by lia. f_equal. lia. }
  assert (Hz : (Z.of_N n < 2 ^ Z.of_N (bits - 1))%Z).
  { rewrite <- N2Z.inj_pow with (n := 2). lia. }
  assert (0 < 2 ^ Z.of_N (bits - 1))%Z by lia.
  rewrite Ep. rewrite Z.mod_small by lia.
  replace (2 * 2 ^ Z.of_N (bits - 1) / 2)%Z with (2 ^ Z.of_N (bits - 1))%Z
    by (rewrite Z.mul_comm, Z.div_mul; lia).
  destruct (Z.of_N n <? 2 ^ Z.of_N (bits - 1))%Z eqn:E; lia.
Qed.

Lemma as_signed_big bits n : 0 < bits -> 2 ^ (bits - 1) <= n < 2 ^ bits ->
  as_signed bits n = (Z.of_N n - 2 ^ Z.of_N bits)%Z.
Proof.
  intros Hb Hn. unfold as_signed, swrap.
  assert (Ep : (2 ^ Z.of_N bits = 2 * 2 ^ Z.of_N (bits - 1))%Z).
  { rewrite <- Z.pow_succ_r by lia. f_equal. lia. }
  assert (Hz : (2 ^ Z.of_N (bits - 1) <= Z.of_N n < 2 ^ Z.of_N bits)%Z).
  { rewrite <- !N2Z.inj_pow with (n := 2). lia. }
  rewrite Ep in *. rewrite Z.mod_small by lia.
  replace (2 * 2 ^ Z.of_N (bits - 1) / 2)%Z with (2 ^ Z.of_N (bits - 1))%Z
    by (rewrite Z.mul_comm, Z.div_mul; lia).
  destruct (Z.of_N n <? 2 ^ Z.of_N (bits - 1))%Z eqn:E; lia.
Qed.

Lemma leb128_len_cases n : n < 2 ^ 64 ->
  lenN (leb128 n) =
    if n <? 2 ^ 7 then 1 else if n <? 2 ^ 14 then 2 else if n <? 2 ^ 21 then 3
    else if n <? 2 ^ 28 then 4 else if n <? 2 ^ 35 then 5 else if n <? 2 ^ 42 then 6
    else if n <? 2 ^ 49 then 7 else if n <? 2 ^ 56 then 8 else if n <? 2 ^ 63 then 9 else 10.
Proof.
  intros H.
  destruct (n <? 2 ^ 7) eqn:E7; [rewrite leb128_small by (pows; lia); reflexivity|].
  repeat match goal with
  | |- context [if ?n <? ?b then ?k else _] =>
      destruct (n <? b) eqn:?;
      [ let j := eval vm_compute in (N.pred k) in
        change k with (N.succ j); apply leb128_len_eq;
        try change (N.succ j) with k; pows; lia | ]
  end.
  change 10 with (N.succ 9). apply leb128_len_eq; change (N.succ 9) with 10; pows; lia.
Qed.

Lemma uv_size_32 n : n < 2 ^ 32 -> uv_size 32 n = lenN (leb128 n).
Proof.
  intros H.
  rewrite leb128_len_cases by (eapply N.lt_trans; [exact H|reflexivity]).
  unfold uv_size. change (32 =? 64) with false. cbv iota.
  unfold size_32. rewrite !land_high_zero by lia.
  destruct (N.lt_ge_cases n (2 ^ 31)) as [L|G].
  - rewrite as_signed_small by (reflexivity || exact L).
    pows.
    repeat match goal with |- context [if ?c then _ else _] => destruct c eqn:? end; lia.
  - rewrite as_signed_big by (reflexivity || (split; [exact G|exact H])).
    pows.
    repeat match goal with |- context [if ?c then _ else _] => destruct c eqn:? end; lia.
Qed.

Lemma size_32_small bits n : bits = 8 \/ bits = 16 \/ bits = 32 -> n < 2 ^ bits ->
  uv_size bits n = lenN (leb128 n).
Proof.
  intros Hb H. rewrite <- uv_size_32.
  - unfold uv_size. destruct Hb as [-> | [-> | ->]]; reflexivity.
  - destruct Hb as [-> | [-> | ->]]; pows; lia.
Qed.

Lemma shiftr_mono_case (v k c : Z) : (0 <= v)%Z -> (0 <= k)%Z -> (0 <= c)%Z ->
  (Z.shiftr v k <? 2 ^ c)%Z = (v <? 2 ^ (c + k))%Z.
Proof.
  intros Hv Hk Hc. rewrite Z.shiftr_div_pow2 by assumption.
  rewrite Z.pow_add_r by assumption.
  assert (P : (0 < 2 ^ k)%Z) by lia.
  destruct (v <? 2 ^ c * 2 ^ k)%Z eqn:E.
  - apply Z.ltb_lt. apply Z.div_lt_upper_bound; lia.
  - apply Z.ltb_ge. apply Z.div_le_lower_bound; lia.
Qed.

Lemma size_64_spec n : n < 2 ^ 64 -> uv_size 64 n = lenN (leb128 n).
Proof.
  intros H. rewrite leb128_len_cases by exact H.
  unfold uv_size. change (64 =? 64) with true. cbv iota.
  unfold size_64.
  destruct (N.lt_ge_cases n (2 ^ 63)) as [L|G].
  - rewrite as_signed_small by (reflexivity || exact L).
    set (v := Z.of_N n).
    assert (Hv : (0 <= v)%Z) by (subst v; lia).
    rewrite (land_high_zero v 7) by lia.
    rewrite (land_high_zero v 35) by lia.
    assert (Hv0 : (v <? 0)%Z = false) by lia. rewrite Hv0.
    assert (Hv1 : (0 <=? v)%Z = true) by lia. rewrite Hv1. cbn [andb].
    destruct (v <? 2 ^ 35)%Z eqn:E35.
    + cbv iota beta zeta. rewrite (land_high_zero v 21) by lia. rewrite Hv1. cbn [andb].
      destruct (v <? 2 ^ 21)%Z eqn:E21.
      * rewrite (land_high_zero v 14) by lia. rewrite Hv1. cbn [andb].
        subst v. pows.
        repeat match goal with |- context [if ?c then _ else _] => destruct c eqn:? end; lia.
      * rewrite (land_high_zero _ 14) by lia.
        rewrite shiftr_mono_case by lia.
        assert (Hs : (0 <=? Z.shiftr v 14)%Z = true) by (apply Z.leb_le, Z.shiftr_nonneg; exact Hv).
        rewrite Hs. cbn [andb].
        subst v. pows.
        repeat match goal with |- context [if ?c then _ else _] => destruct c eqn:? end; lia.
    + cbv iota beta zeta.
      assert (Hs : (0 <= Z.shiftr v 28)%Z) by (apply Z.shiftr_nonneg; exact Hv).
      rewrite (land_high_zero _ 21) by lia. rewrite shiftr_mono_case by lia.
      assert (Hs1 : (0 <=? Z.shiftr v 28)%Z = true) by lia. rewrite Hs1. cbn [andb].
      destruct (v <? 2 ^ (21 + 28))%Z eqn:E49.
      * rewrite (land_high_zero _ 14) by lia. rewrite shiftr_mono_case by lia. rewrite Hs1. cbn [andb].
        subst v. pows.
        repeat match goal with |- context [if ?c then _ else _] => destruct c eqn:? end; lia.
      * rewrite (land_high_zero _ 14) by lia. rewrite shiftr_mono_case by lia.
        rewrite shiftr_mono_case by lia.
        assert (Hs2 : (0 <=? Z.shiftr (Z.shiftr v 28) 14)%Z = true)
          by (apply Z.leb_le, Z.shiftr_nonneg; exact Hs).
        rewrite Hs2. cbn [andb].
        subst v. pows.
        repeat match goal with |- context [if ?c then _ else _] => destruct c eqn:? end; lia.
  - rewrite as_signed_big by (reflexivity || (split; [exact G|exact H])).
    rewrite land_high_zero by lia.
    set (v := (Z.of_N n - 2 ^ Z.of_N 64)%Z).
    assert (Hv : (v < 0)%Z).
    { subst v. pows. lia. }
    assert (E1 : (0 <=? v)%Z = false) by lia. rewrite E1. cbn [andb].
    assert (E2 : (v <? 0)%Z = true) by lia. rewrite E2.
    pows.
    repeat match goal with |- context [if ?c then _ else _] => destruct c eqn:? end; lia.
Qed.

Lemma ibits_cases k : ibits k = 8 \/ ibits k = 16 \/ ibits k = 32 \/ ibits k = 64.
Proof. destruct k; cbn; auto. Qed.

Lemma uv_size_spec bits n :
  bits = 8 \/ bits = 16 \/ bits = 32 \/ bits = 64 -> n < 2 ^ bits ->
  uv_size bits n = lenN (leb128 n).
Proof.
  intros [->|[-> | [-> | ->]]] H; [apply size_32_small|apply size_32_small|apply size_32_small|apply size_64_spec];
    auto.
Qed.
