(** Proofs about integers on the wire, tags, booleans and the reader primitives. *)
From Verif Require Import Base Varint WireFmt Types Spec VarintProofs.

(** * Signed integers *)

Lemma pow_half b : 0 < b -> (2 ^ Z.of_N b = 2 * 2 ^ (Z.of_N b - 1))%Z.
Proof.
  intros H. rewrite <- Z.pow_succ_r by lia. f_equal. lia.
Qed.

Lemma swrap_mod b x : 0 < b -> (swrap b x mod 2 ^ Z.of_N b = x mod 2 ^ Z.of_N b)%Z.
Proof.
  intros Hb. unfold swrap.
  assert (P : (0 < 2 ^ Z.of_N b)%Z) by (apply Z.pow_pos_nonneg; lia).
  destruct (_ <? _)%Z.
  - apply Z.mod_mod. lia.
  - replace (x mod 2 ^ Z.of_N b - 2 ^ Z.of_N b)%Z
      with (x mod 2 ^ Z.of_N b + (-1) * 2 ^ Z.of_N b)%Z by lia.
    rewrite Z.mod_add by lia. apply Z.mod_mod. lia.
Qed.

Lemma shiftr_sign z b : (0 <= b)%Z -> (- 2 ^ b <= z < 2 ^ b)%Z ->
  Z.shiftr z b = (if z <? 0 then -1 else 0)%Z.
Proof.
  intros Hb Hz. rewrite Z.shiftr_div_pow2 by assumption.
  assert (P : (0 < 2 ^ b)%Z) by (apply Z.pow_pos_nonneg; lia).
  destruct (z <? 0)%Z eqn:E.
  - symmetry. apply Z.div_unique with (z + 2 ^ b)%Z; lia.
  - apply Z.div_small. lia.
Qed.

Lemma zz_encode_spec b z : 1 < b ->
  (- 2 ^ (Z.of_N b - 1) <= z < 2 ^ (Z.of_N b - 1))%Z ->
  as_unsigned b (zz_encode b z) = zigzag z.
Proof.
  intros Hb Hz. unfold as_unsigned, zz_encode, zigzag.
  rewrite shiftr_sign by (try assumption; lia).
  rewrite Z.shiftl_mul_pow2 by lia. change (2 ^ 1)%Z with 2%Z.
  pose proof (pow_half b ltac:(lia)) as Hh.
  pose proof (swrap_mod b (z * 2) ltac:(lia)) as Hs.
  set (p := (2 ^ (Z.of_N b - 1))%Z) in *.
  assert (Pp : (0 < p)%Z) by (subst p; apply Z.pow_pos_nonneg; lia).
  destruct (z <? 0)%Z eqn:E.
  - rewrite Z.lxor_m1_r. unfold Z.lnot. f_equal.
    assert (E1 : ((Z.pred (- swrap b (z * 2))) mod 2 ^ Z.of_N b = (- (z * 2) - 1) mod 2 ^ Z.of_N b)%Z).
    { rewrite <- Z.sub_1_r.
      rewrite Zminus_mod, (Zminus_mod (- (z * 2))). f_equal. f_equal.
      rewrite <- !(Z.sub_0_l (_)).
      rewrite Zminus_mod, (Zminus_mod 0 (z * 2)). now rewrite Hs. }
    rewrite E1. clear E1 Hs. rewrite Z.mod_small; [lia|]. rewrite Hh. lia.
  - rewrite Z.lxor_0_r. rewrite Hs, Z.mod_small; f_equal; lia.
Qed.

Lemma zz_decode_spec v : zz_decode v = (if Z.even v then v / 2 else - (v / 2) - 1)%Z.
Proof.
  unfold zz_decode. rewrite Z.shiftr_div_pow2 by lia. change (2 ^ 1)%Z with 2%Z.
  replace (Z.land v 1) with (v mod 2)%Z by (symmetry; exact (Z.land_ones v 1 ltac:(lia))).
  rewrite Zmod_even. destruct (Z.even v).
  - change (- 0)%Z with 0%Z. now rewrite Z.lxor_0_r.
  - change (-1)%Z with (-1)%Z. rewrite Z.lxor_m1_r. unfold Z.lnot. lia.
Qed.

(** What comes back when [z] of kind [k] is written and read again. *)
Definition int_back (k : ikind) (z : Z) : Z :=
  if int_safe k z then z
  else let h := (2 ^ (Z.of_N (ibits k) - 1))%Z in
       if (z <? 0)%Z then (z + h)%Z else (z - h)%Z.

Lemma zigzag_bound k z : in_range k z = true -> wire_num k z < 2 ^ ibits k.
Proof.
  unfold in_range, wire_num, zigzag.
  intros H. apply N2Z.inj_lt. rewrite N2Z.inj_pow.
  destruct k; cbn [isigned ibits] in *;
  repeat match type of H with context [(2 ^ ?e)%Z] =>
    let x := eval vm_compute in (2 ^ e)%Z in change (2 ^ e)%Z with x in H end;
  repeat match goal with |- context [(Z.of_N ?a ^ Z.of_N ?b)%Z] =>
    let x := eval vm_compute in (Z.of_N a ^ Z.of_N b)%Z in change (Z.of_N a ^ Z.of_N b)%Z with x end;
  try (destruct (z <? 0)%Z eqn:?); lia.
Qed.

Lemma int_wire_spec k z : in_range k z = true -> int_wire k z = wire_num k z.
Proof.
  unfold in_range, int_wire, wire_num. intros H.
  destruct (isigned k) eqn:Es; [|reflexivity].
  apply zz_encode_spec; [destruct k; cbn; lia|]. lia.
Qed.

Lemma int_serialize_spec k z : in_range k z = true ->
  int_serialize k z = Ok (leb128 (wire_num k z)).
Proof.
  intros H. unfold int_serialize. rewrite int_wire_spec by exact H.
  apply uv_serialize_spec; [destruct k; cbn; lia|]. now apply zigzag_bound.
Qed.

Lemma int_size_spec k z : in_range k z = true ->
  int_size k z = lenN (leb128 (wire_num k z)).
Proof.
  intros H. unfold int_size. rewrite int_wire_spec by exact H.
  apply uv_size_spec; [apply ibits_cases|]. now apply zigzag_bound.
Qed.

Lemma zigzag_decode k z : isigned k = true -> in_range k z = true ->
  zz_decode (as_signed (ibits k) (zigzag z)) = int_back k z.
Proof.
  intros Hs Hr.
  pose proof (zigzag_bound k z Hr) as Hb. unfold wire_num in Hb. rewrite Hs in Hb.
  unfold int_back, int_safe, in_range in *. rewrite Hs in *.
  set (b := ibits k) in *.
  assert (Hb2 : 2 <= b) by (subst b; destruct k; cbn; lia).
  assert (E1 : (2 ^ (Z.of_N b - 1) = 2 * 2 ^ (Z.of_N b - 2))%Z).
  { rewrite <- Z.pow_succ_r by lia. f_equal. lia. }
  pose proof (pow_half b ltac:(lia)) as E2.
  assert (E3 : Z.of_N (2 ^ (b - 1)) = (2 ^ (Z.of_N b - 1))%Z).
  { rewrite N2Z.inj_pow, N2Z.inj_sub by lia. reflexivity. }
  assert (P : (0 < 2 ^ (Z.of_N b - 2))%Z) by (apply Z.pow_pos_nonneg; lia).
  rewrite E1 in *. set (q := (2 ^ (Z.of_N b - 2))%Z) in *.
  clearbody q.
  assert (Zu : Z.of_N (zigzag z) = (if z <? 0 then -2 * z - 1 else 2 * z)%Z).
  { unfold zigzag. destruct (z <? 0)%Z eqn:E; rewrite Z2N.id; lia. }
  destruct (N.lt_ge_cases (zigzag z) (2 ^ (b - 1))) as [L|G].
  - rewrite as_signed_small by (lia || exact L). rewrite zz_decode_spec, Zu.
    assert (Hsafe : ((- q <=? z) && (z <? q))%Z = true).
    { destruct (z <? 0)%Z eqn:E; lia. }
    rewrite Hsafe.
    destruct (z <? 0)%Z eqn:E.
    + replace (-2 * z - 1)%Z with (2 * (- z - 1) + 1)%Z by lia.
      rewrite Z.even_add, Z.even_mul. cbn [Z.even orb xorb eqb Bool.eqb].
      replace ((2 * (- z - 1) + 1) / 2)%Z with (- z - 1)%Z by lia. lia.
    + rewrite Z.even_mul. cbn [Z.even orb]. replace (2 * z / 2)%Z with z by lia. lia.
  - rewrite as_signed_big by (split; [exact G|exact Hb] || lia).
    rewrite zz_decode_spec, Zu, E2.
    assert (Hsafe : ((- q <=? z) && (z <? q))%Z = false).
    { destruct (z <? 0)%Z eqn:E; lia. }
    rewrite Hsafe.
    destruct (z <? 0)%Z eqn:E.
    + replace (-2 * z - 1 - 2 * (2 * q))%Z with (2 * (- z - 1 - 2 * q) + 1)%Z by lia.
      rewrite Z.even_add, Z.even_mul. cbn [Z.even orb xorb eqb Bool.eqb].
      replace ((2 * (- z - 1 - 2 * q) + 1) / 2)%Z with (- z - 1 - 2 * q)%Z by lia. lia.
    + replace (2 * z - 2 * (2 * q))%Z with (2 * (z - 2 * q))%Z by lia.
      rewrite Z.even_mul. cbn [Z.even orb].
      replace (2 * (z - 2 * q) / 2)%Z with (z - 2 * q)%Z by lia. lia.
Qed.

Lemma int_back_unsigned k z : isigned k = false -> in_range k z = true -> int_back k z = z.
Proof.
  intros Hs Hr. unfold int_back, int_safe, in_range in *. rewrite Hs in *. now rewrite Hr.
Qed.

Lemma int_roundtrip m k z rest : in_range k z = true ->
  int_deserialize m k (leb128 (wire_num k z) ++ rest) = Ok (int_back k z, rest).
Proof.
  intros H. unfold int_deserialize.
  rewrite uv_deserialize_leb; [|destruct k; cbn; lia|now apply zigzag_bound].
  cbn [bind]. unfold wire_num. destruct (isigned k) eqn:Es.
  - now rewrite zigzag_decode.
  - rewrite int_back_unsigned by assumption. unfold in_range in H. rewrite Es in H.
    do 2 f_equal. lia.
Qed.

Lemma int_back_safe k z : int_safe k z = true -> int_back k z = z.
Proof. intros H. unfold int_back. now rewrite H. Qed.

Lemma int_safe_range k z : int_safe k z = true -> in_range k z = true.
Proof.
  unfold int_safe, in_range.
  destruct k; cbn [isigned ibits] in *;
  repeat match goal with |- context [(2 ^ ?e)%Z] =>
    let x := eval vm_compute in (2 ^ e)%Z in change (2 ^ e)%Z with x end; lia.
Qed.

Lemma int_back_unsafe k z : in_range k z = true -> int_safe k z = false -> int_back k z <> z.
Proof.
  intros H1 H2. unfold int_back. rewrite H2.
  assert (0 < 2 ^ (Z.of_N (ibits k) - 1))%Z by (apply Z.pow_pos_nonneg; destruct k; cbn; lia).
  destruct (z <? 0)%Z; lia.
Qed.

Lemma int_deserialize_range m k bs z rest :
  bytes_ok bs -> int_deserialize m k bs = Ok (z, rest) -> in_range k z = true.
Proof.
  intros Hok H. unfold int_deserialize in H.
  destruct (uv_deserialize m (ibits k) bs) as [[u r]|?| |] eqn:E; cbn [bind] in H; try discriminate.
  inversion H; subst. clear H.
  assert (Hu : u < 2 ^ ibits k).
  { unfold uv_deserialize in E.
    destruct (varint_prefix bs) as [[p r']|] eqn:Hp.
    - destruct (N.lt_ge_cases (0 + 7 * (lenN p - 1)) (ibits k)) as [L|G].
      + rewrite (uv_de_loop_prefix m (ibits k) ltac:(destruct k; cbn; lia) bs 0 0 p r' Hok Hp L) in E
          by (change (2 ^ 0) with 1; lia).
        inversion E. apply N.mod_lt. apply N.pow_nonzero. lia.
      + destruct m.
        * rewrite (uv_de_loop_overlong_debug (ibits k)) in E; [discriminate|destruct k; cbn; lia|exact Hok|].
          rewrite Hp. exact G.
        * destruct (uv_de_loop_release (ibits k) ltac:(destruct k; cbn; lia) bs 0 0 p r' Hok Hp
                      ltac:(destruct k; reflexivity)) as [x [E' Hx]].
          rewrite E' in E. inversion E; subst. exact Hx.
    - exfalso. destruct m.
      + destruct (N.lt_ge_cases (0 + 7 * (lenN bs - 1)) (ibits k)) as [L|G].
        * rewrite uv_de_loop_none in E; [discriminate|destruct k; cbn; lia|exact Hok|exact Hp|auto].
        * destruct bs as [|b bs]; [discriminate|].
          rewrite uv_de_loop_overlong_debug in E; [discriminate|destruct k; cbn; lia|exact Hok|].
          rewrite Hp. split; [exact G|discriminate].
      + rewrite uv_de_loop_none in E; [discriminate|destruct k; cbn; lia|exact Hok|exact Hp|auto]. }
  unfold in_range.
  destruct (isigned k) eqn:Es.
  - rewrite zz_decode_spec. unfold as_signed, swrap.
    assert (Hz : (Z.of_N u < 2 ^ Z.of_N (ibits k))%Z).
    { apply N2Z.inj_lt in Hu. now rewrite N2Z.inj_pow in Hu. }
    rewrite (Z.mod_small (Z.of_N u)) by lia.
    destruct k; cbn [isigned ibits] in *; try discriminate;
    repeat match goal with |- context [(2 ^ ?e)%Z] =>
      let x := eval vm_compute in (2 ^ e)%Z in change (2 ^ e)%Z with x end;
    repeat match type of Hz with context [(2 ^ ?e)%Z] =>
      let x := eval vm_compute in (2 ^ e)%Z in change (2 ^ e)%Z with x in Hz end;
    match goal with |- context [(?a / 2)%Z] =>
      let x := eval vm_compute in (a / 2)%Z in change (a / 2)%Z with x end;
    destruct (_ <? _)%Z eqn:?; destruct (Z.even _); lia.
  - apply N2Z.inj_lt in Hu. rewrite N2Z.inj_pow in Hu. change (Z.of_N 2) with 2%Z in Hu. lia.
Qed.

(** * Every decode consumes at least one byte and returns a suffix *)

Lemma uv_de_loop_suffix m bits : forall bs value off x rest,
  uv_de_loop m bits value off bs = Ok (x, rest) -> exists p, bs = p ++ rest /\ p <> [].
Proof.
  induction bs as [|b bs IH]; intros value off x rest H; [discriminate|].
  cbn [uv_de_loop] in H.
  assert (G : forall sh,
    (if N.land b 128 =? 0 then Ok (N.lor value (N.shiftl (N.land b 127) sh mod 2 ^ bits), bs)
     else uv_de_loop m bits (N.lor value (N.shiftl (N.land b 127) sh mod 2 ^ bits)) (off + 7) bs)
    = Ok (x, rest) -> exists p, b :: bs = p ++ rest /\ p <> []).
  { intros sh H'. destruct (N.land b 128 =? 0).
    - inversion H'; subst. exists [b]. split; [reflexivity|discriminate].
    - destruct (IH _ _ _ _ H') as [p [-> Hp]]. exists (b :: p). split; [reflexivity|discriminate]. }
  destruct (off <? bits); [exact (G _ H)|].
  destruct m; [discriminate|exact (G _ H)].
Qed.

Lemma uv_deserialize_suffix m bits bs x rest :
  uv_deserialize m bits bs = Ok (x, rest) -> exists p, bs = p ++ rest /\ p <> [].
Proof. apply uv_de_loop_suffix. Qed.

Lemma uv_de_loop_nofuel m bits bs : forall value off, uv_de_loop m bits value off bs <> NoFuel.
Proof.
  induction bs as [|b bs IH]; intros value off; cbn [uv_de_loop]; [discriminate|].
  destruct (off <? bits).
  - destruct (N.land b 128 =? 0); [discriminate|apply IH].
  - destruct m; [discriminate|]. destruct (N.land b 128 =? 0); [discriminate|apply IH].
Qed.

Lemma uv_deserialize_nofuel m bits bs : uv_deserialize m bits bs <> NoFuel.
Proof. apply uv_de_loop_nofuel. Qed.

Lemma bool_de_loop_suffix : forall bs v x rest,
  bool_de_loop v bs = Ok (x, rest) -> exists p, bs = p ++ rest /\ p <> [].
Proof.
  induction bs as [|b bs IH]; intros v x rest H; [discriminate|].
  cbn [bool_de_loop] in H. destruct (N.land b 128 =? 0).
  - inversion H; subst. exists [b]. split; [reflexivity|discriminate].
  - destruct (IH _ _ _ H) as [p [-> Hp]]. exists (b :: p). split; [reflexivity|discriminate].
Qed.

(** * Tags *)

Lemma mk_tag_spec fn w : fn <= FIELD_NUMBER_MAX -> mk_tag fn w = Ok (tag_num fn w).
Proof.
  intros H. unfold mk_tag, validate_field_number.
  destruct (FIELD_NUMBER_MAX <? fn) eqn:E; [lia|]. cbn [bind]. f_equal.
  unfold tag_num, FIELD_NUMBER_MAX, WIRE_TYPE_BITS, wt_value in *.
  rewrite N.shiftl_mul_pow2. rewrite N.mod_small by (change (2 ^ 3) with 8; change (2 ^ 32) with 4294967296; lia).
  change (2 ^ 3) with 8. rewrite N.lor_comm.
  replace (fn * 8) with (fn * 2 ^ 3) by reflexivity.
  rewrite lor_shift.
  - change (2 ^ 3) with 8. destruct w; lia.
  - change (2 ^ 3) with 8. destruct w; lia.
Qed.

Lemma mk_tag_err fn w : FIELD_NUMBER_MAX < fn -> mk_tag fn w = Err InvalidData.
Proof.
  intros H. unfold mk_tag, validate_field_number.
  destruct (FIELD_NUMBER_MAX <? fn) eqn:E; [reflexivity|lia].
Qed.

Lemma tag_num_bound fn w : fn <= FIELD_NUMBER_MAX -> tag_num fn w < 2 ^ 32.
Proof.
  unfold tag_num, FIELD_NUMBER_MAX. change (2 ^ 32) with 4294967296. destruct w; lia.
Qed.

Lemma parse_tag_num fn w : fn <= FIELD_NUMBER_MAX -> parse_tag (tag_num fn w) = Ok (fn, w).
Proof.
  intros H. unfold parse_tag.
  change WIRE_TYPE_MASK with (N.ones 3). rewrite N.land_ones, N.shiftr_div_pow2.
  change WIRE_TYPE_BITS with 3. change (2 ^ 3) with 8.
  unfold tag_num.
  assert (E1 : (8 * fn + match w with Varint => 0 | Sized => 2 end) mod 8 = wt_value w)
    by (destruct w; cbn [wt_value]; lia).
  assert (E2 : (8 * fn + match w with Varint => 0 | Sized => 2 end) / 8 = fn)
    by (destruct w; lia).
  rewrite E1, E2. unfold validate_field_number.
  destruct (FIELD_NUMBER_MAX <? fn) eqn:E; [lia|]. destruct w; reflexivity.
Qed.

Lemma parse_tag_inv v fn w : v < 2 ^ 32 -> parse_tag v = Ok (fn, w) ->
  v = tag_num fn w /\ fn <= FIELD_NUMBER_MAX.
Proof.
  unfold parse_tag. change WIRE_TYPE_MASK with (N.ones 3). rewrite N.land_ones, N.shiftr_div_pow2.
  change WIRE_TYPE_BITS with 3. change (2 ^ 3) with 8.
  intros Hv. unfold wt_from_value, validate_field_number, tag_num.
  destruct (v mod 8 =? 0) eqn:E0; [|destruct (v mod 8 =? 2) eqn:E2]; cbn [bind];
    destruct (FIELD_NUMBER_MAX <? v / 8) eqn:E; cbn [bind]; intros H; inversion H; subst; lia.
Qed.

Lemma parse_tag_total v : v < 2 ^ 32 ->
  parse_tag v = if v mod 8 =? 0 then Ok (v / 8, Varint)
                else if v mod 8 =? 2 then Ok (v / 8, Sized) else Err InvalidData.
Proof.
  unfold parse_tag. change WIRE_TYPE_MASK with (N.ones 3). rewrite N.land_ones, N.shiftr_div_pow2.
  change WIRE_TYPE_BITS with 3. change (2 ^ 3) with 8. change (2 ^ 32) with 4294967296.
  intros Hv. unfold wt_from_value, validate_field_number, FIELD_NUMBER_MAX.
  assert (E : 0x1fffffff <? v / 8 = false) by lia. rewrite E.
  destruct (v mod 8 =? 0); [reflexivity|]. destruct (v mod 8 =? 2); reflexivity.
Qed.

Lemma rd_tag_num m fn w rest : fn <= FIELD_NUMBER_MAX ->
  rd_tag m (leb128 (tag_num fn w) ++ rest) = Ok (fn, w, rest).
Proof.
  intros H. unfold rd_tag.
  rewrite uv_deserialize_leb by (try reflexivity; now apply tag_num_bound).
  cbn [bind]. now rewrite parse_tag_num.
Qed.

Lemma rd_tag_suffix m bs fn w rest : rd_tag m bs = Ok (fn, w, rest) ->
  exists p, bs = p ++ rest /\ p <> [].
Proof.
  unfold rd_tag. destruct (uv_deserialize m 32 bs) as [[v r]|?| |] eqn:E; cbn [bind]; try discriminate.
  destruct (parse_tag v) as [[f w']|?| |]; cbn [bind]; try discriminate.
  intros H; inversion H; subst. now apply uv_deserialize_suffix in E.
Qed.

(** * Limited readers *)

Lemma splitN_app {A} (l rest : list A) : splitN (lenN l) (l ++ rest) = (l, rest).
Proof.
  unfold lenN. induction l as [|x l IH]; cbn [length app].
  - destruct rest; reflexivity.
  - cbn [splitN]. destruct (N.of_nat (S (length l)) =? 0) eqn:E; [lia|].
    replace (N.of_nat (S (length l)) - 1) with (N.of_nat (length l)) by lia. now rewrite IH.
Qed.

Lemma splitN_all {A} (l : list A) n : lenN l <= n -> splitN n l = (l, []).
Proof.
  unfold lenN. revert n. induction l as [|x l IH]; intros n H; [reflexivity|].
  cbn [splitN length] in *. destruct (n =? 0) eqn:E; [lia|]. rewrite IH by lia. reflexivity.
Qed.

Lemma splitN_concat {A} (l : list A) n a b : splitN n l = (a, b) -> l = a ++ b.
Proof.
  revert n a b. induction l as [|x l IH]; intros n a b H; cbn in H; [inversion H; reflexivity|].
  destruct (n =? 0); [inversion H; reflexivity|].
  destruct (splitN (n - 1) l) as [a' b'] eqn:E. inversion H; subst. cbn. f_equal. eauto.
Qed.

Lemma rd_nested_spec m l rest : lenN l < 2 ^ 64 ->
  rd_nested m (leb128 (lenN l) ++ l ++ rest) = Ok (l, rest).
Proof.
  intros H. unfold rd_nested. rewrite uv_deserialize_leb by (reflexivity || exact H).
  cbn [bind]. now rewrite splitN_app.
Qed.

Lemma rd_nested_suffix m bs sub after : rd_nested m bs = Ok (sub, after) ->
  exists p, bs = p ++ sub ++ after /\ p <> [].
Proof.
  unfold rd_nested. destruct (uv_deserialize m 64 bs) as [[v r]|?| |] eqn:E; cbn [bind]; try discriminate.
  intros H. inversion H as [H']. apply splitN_concat in H'.
  apply uv_deserialize_suffix in E. destruct E as [p [-> Hp]]. exists p. now rewrite H'.
Qed.

Lemma rd_skip_suffix m w bs after : rd_skip_field m w bs = Ok after ->
  exists p, bs = p ++ after /\ p <> [].
Proof.
  unfold rd_skip_field. destruct w.
  - destruct (uv_deserialize m 8 bs) as [[v r]|?| |] eqn:E; cbn [bind]; try discriminate.
    intros H; inversion H; subst. now apply uv_deserialize_suffix in E.
  - destruct (uv_deserialize m 64 bs) as [[v r]|?| |] eqn:E; cbn [bind]; try discriminate.
    destruct (v <? 2 ^ 63); [|discriminate].
    intros H; inversion H; subst. apply uv_deserialize_suffix in E. destruct E as [p [-> Hp]].
    destruct (splitN v r) as [a b] eqn:E. apply splitN_concat in E. subst r. cbn [snd].
    exists (p ++ a). rewrite app_assoc. split; [reflexivity|]. destruct p; [congruence|discriminate].
Qed.

(** * Booleans *)
Lemma bool_roundtrip b rest : bool_deserialize (bool_serialize b ++ rest) = Ok (b, rest).
Proof. destruct b; reflexivity. Qed.

(** * Statements used by PropWire.v *)

Lemma unsigned_roundtrip m k z rest :
  isigned k = false -> in_range k z = true ->
  exists bs, int_serialize k z = Ok bs /\ int_deserialize m k (bs ++ rest) = Ok (z, rest).
Proof.
  intros Hs Hr. exists (leb128 (wire_num k z)). split; [now apply int_serialize_spec|].
  rewrite int_roundtrip by exact Hr. now rewrite int_back_unsigned.
Qed.

Lemma signed_roundtrip m k z rest :
  isigned k = true -> in_range k z = true ->
  exists bs z', int_serialize k z = Ok bs /\ int_deserialize m k (bs ++ rest) = Ok (z', rest) /\
    (z' = z <-> (- 2 ^ (Z.of_N (ibits k) - 2) <= z < 2 ^ (Z.of_N (ibits k) - 2))%Z).
Proof.
  intros Hs Hr. exists (leb128 (wire_num k z)), (int_back k z).
  split; [now apply int_serialize_spec|]. split; [now apply int_roundtrip|].
  destruct (int_safe k z) eqn:E.
  - rewrite int_back_safe by exact E. unfold int_safe in E. rewrite Hs in E. split; [lia|reflexivity].
  - pose proof (int_back_unsafe k z Hr E). unfold int_safe in E. rewrite Hs in E.
    split; [congruence|lia].
Qed.

Lemma announced_size k z : in_range k z = true ->
  exists bs, int_serialize k z = Ok bs /\ int_size k z = lenN bs /\
    1 <= int_size k z <= (ibits k + 6) / 7.
Proof.
  intros Hr. exists (leb128 (wire_num k z)). rewrite int_serialize_spec, int_size_spec by exact Hr.
  split; [reflexivity|]. split; [reflexivity|].
  split; [apply leb128_len_pos|].
  pose proof (zigzag_bound k z Hr) as B.
  assert (Hk : ibits k <= 7 * ((ibits k + 6) / 7)) by (destruct k; vm_compute; discriminate).
  assert (P : 0 < (ibits k + 6) / 7) by (destruct k; reflexivity).
  rewrite <- (N.succ_pred ((ibits k + 6) / 7)) by lia.
  apply leb128_len_le.
  rewrite N.succ_pred by lia.
  eapply N.lt_le_trans; [exact B|].
  change 128 with (2 ^ 7). rewrite <- N.pow_mul_r. now apply N.pow_le_mono_r.
Qed.

Lemma leb128_prefix_free n1 n2 r1 r2 : leb128 n1 ++ r1 = leb128 n2 ++ r2 -> n1 = n2 /\ r1 = r2.
Proof.
  intros H. pose proof (varint_prefix_leb n1 r1) as P1. pose proof (varint_prefix_leb n2 r2) as P2.
  rewrite H, P2 in P1. inversion P1 as [[E1 E2]].
  split; [|reflexivity].
  rewrite <- (groups_value_leb n1), <- (groups_value_leb n2). now rewrite E1.
Qed.

Lemma wire_num_inj k z1 z2 : in_range k z1 = true -> in_range k z2 = true ->
  wire_num k z1 = wire_num k z2 -> z1 = z2.
Proof.
  unfold in_range, wire_num, zigzag. intros H1 H2.
  destruct (isigned k); [|lia].
  destruct (z1 <? 0)%Z eqn:?; destruct (z2 <? 0)%Z eqn:?; lia.
Qed.

Lemma encodings_prefix_free k z1 z2 b1 b2 r1 r2 :
  in_range k z1 = true -> in_range k z2 = true ->
  int_serialize k z1 = Ok b1 -> int_serialize k z2 = Ok b2 ->
  b1 ++ r1 = b2 ++ r2 -> z1 = z2 /\ r1 = r2.
Proof.
  intros H1 H2 S1 S2 E. rewrite int_serialize_spec in S1, S2 by assumption.
  inversion S1; subst b1. inversion S2; subst b2.
  apply leb128_prefix_free in E. destruct E as [E ->]. split; [|reflexivity].
  eapply wire_num_inj; eassumption.
Qed.

Lemma decode_arbitrary m bits bs :
  bits = 8 \/ bits = 16 \/ bits = 32 \/ bits = 64 -> bytes_ok bs ->
  match varint_prefix bs with
  | Some (p, rest) =>
      if 7 * (lenN p - 1) <? bits
      then uv_deserialize m bits bs = Ok (groups_value p mod 2 ^ bits, rest)
      else match m with
           | Debug => uv_deserialize m bits bs = Panic
           | Release => exists x, uv_deserialize m bits bs = Ok (x, rest) /\ x < 2 ^ bits
           end
  | None =>
      if (7 * (lenN bs - 1) <? bits)
      then uv_deserialize m bits bs = Err UnexpectedEof
      else match m with
           | Debug => uv_deserialize m bits bs = Panic
           | Release => uv_deserialize m bits bs = Err UnexpectedEof
           end
  end.
Proof.
  intros Hb Hok. unfold uv_deserialize.
  assert (Hpos : 0 < bits) by (destruct Hb as [-> | [-> | [-> | ->]]]; reflexivity).
  destruct (varint_prefix bs) as [[p rest]|] eqn:Hp.
  - destruct (7 * (lenN p - 1) <? bits) eqn:E.
    + rewrite (uv_de_loop_prefix m bits Hpos bs 0 0 p rest Hok Hp ltac:(lia) ltac:(reflexivity)).
      change (2 ^ 0) with 1. rewrite N.mul_1_r. reflexivity.
    + destruct m.
      * apply uv_de_loop_overlong_debug; [exact Hpos|exact Hok|]. rewrite Hp. lia.
      * apply (uv_de_loop_release bits Hpos bs 0 0 p rest Hok Hp).
        destruct Hb as [-> | [-> | [-> | ->]]]; reflexivity.
  - destruct (7 * (lenN bs - 1) <? bits) eqn:E.
    + apply uv_de_loop_none; [exact Hpos|exact Hok|exact Hp|]. right. left. lia.
    + destruct m.
      * apply uv_de_loop_overlong_debug; [exact Hpos|exact Hok|]. rewrite Hp. split; [lia|].
        intros ->. cbn in E. lia.
      * apply uv_de_loop_none; auto.
Qed.

(** [varint_prefix] says what it should. *)
Lemma varint_prefix_spec bs : match varint_prefix bs with
  | Some (p, rest) => bs = p ++ rest /\ exists q b, p = q ++ [b] /\ b < 128 /\ Forall (fun x => 128 <= x) q
  | None => Forall (fun x => 128 <= x) bs
  end.
Proof.
  induction bs as [|b bs IH]; cbn; [constructor|].
  destruct (b <? 128) eqn:E.
  - split; [reflexivity|]. exists [], b. split; [reflexivity|]. split; [lia|constructor].
  - destruct (varint_prefix bs) as [[p rest]|].
    + destruct IH as [-> [q [b' [-> [Hb' Hq]]]]]. split; [reflexivity|].
      exists (b :: q), b'. split; [reflexivity|]. split; [exact Hb'|]. constructor; [lia|exact Hq].
    + constructor; [lia|exact IH].
Qed.

Lemma tag_packing fn w :
  (fn <= FIELD_NUMBER_MAX ->
     exists t, mk_tag fn w = Ok t /\ t < 2 ^ 32 /\ t = 8 * fn + wt_value w /\ parse_tag t = Ok (fn, w)) /\
  (FIELD_NUMBER_MAX < fn -> mk_tag fn w = Err InvalidData).
Proof.
  split; intros H.
  - exists (tag_num fn w). split; [now apply mk_tag_spec|]. split; [now apply tag_num_bound|].
    split; [reflexivity|now apply parse_tag_num].
  - now apply mk_tag_err.
Qed.

Lemma tag_parsing t : t < 2 ^ 32 ->
  (t mod 8 = 0 \/ t mod 8 = 2 ->
     exists fn w, parse_tag t = Ok (fn, w) /\ mk_tag fn w = Ok t /\
       forall fn' w', mk_tag fn' w' = Ok t -> fn' = fn /\ w' = w) /\
  (t mod 8 <> 0 -> t mod 8 <> 2 -> parse_tag t = Err InvalidData).
Proof.
  intros Ht. split.
  - intros H.
    assert (P : exists fn w, parse_tag t = Ok (fn, w)).
    { rewrite parse_tag_total by exact Ht.
      destruct (t mod 8 =? 0) eqn:E; [eauto|].
      destruct (t mod 8 =? 2) eqn:E2; [eauto|]. lia. }
    destruct P as [fn [w P]]. exists fn, w. split; [exact P|].
    destruct (parse_tag_inv t fn w Ht P) as [E L]. split.
    + rewrite mk_tag_spec by exact L. now rewrite E.
    + intros fn' w' M.
      destruct (N.le_gt_cases fn' FIELD_NUMBER_MAX) as [L'|G].
      * rewrite mk_tag_spec in M by exact L'. inversion M as [M'].
        pose proof (parse_tag_num fn' w' L') as P'. rewrite M', P in P'. inversion P'; auto.
      * rewrite mk_tag_err in M by exact G. discriminate.
  - intros H0 H2. rewrite parse_tag_total by exact Ht.
    destruct (t mod 8 =? 0) eqn:E; [lia|]. destruct (t mod 8 =? 2) eqn:E2; [lia|]. reflexivity.
Qed.

Lemma bool_decode bs : bytes_ok bs ->
  bool_deserialize bs =
  match varint_prefix bs with
  | Some (p, rest) => Ok (negb (groups_value p =? 0), rest)
  | None => Err UnexpectedEof
  end.
Proof.
  intros Hok. unfold bool_deserialize.
  assert (G : forall v, bool_de_loop v bs =
    match varint_prefix bs with
    | Some (p, rest) => Ok (v || negb (groups_value p =? 0), rest)
    | None => Err UnexpectedEof end).
  { induction bs as [|b bs IH]; intros v; cbn [bool_de_loop varint_prefix]; [reflexivity|].
    inversion Hok as [|? ? Hb Hok']; subst.
    rewrite land128, land127 by exact Hb.
    destruct (b <? 128) eqn:E.
    - cbn [groups_value]. do 3 f_equal. destruct (b mod 128 =? 0) eqn:E1;
        destruct (b mod 128 + 128 * 0 =? 0) eqn:E2; lia || reflexivity.
    - rewrite IH by exact Hok'. destruct (varint_prefix bs) as [[p r]|]; [|reflexivity].
      do 2 f_equal. cbn [groups_value].
      destruct (b mod 128 =? 0) eqn:E1; destruct (groups_value p =? 0) eqn:E2;
        destruct (b mod 128 + 128 * groups_value p =? 0) eqn:E3; destruct v; try reflexivity; lia. }
  rewrite G. destruct (varint_prefix bs) as [[p r]|]; reflexivity.
Qed.

Lemma signed_roundtrip_fails m k : isigned k = true ->
  exists z bs z', in_range k z = true /\ int_serialize k z = Ok bs /\
    int_deserialize m k bs = Ok (z', []) /\ z' <> z.
Proof.
  intros Hk. pose (z := (2 ^ (Z.of_N (ibits k) - 2))%Z).
  assert (R : in_range k z = true) by (destruct k; try discriminate Hk; vm_compute; reflexivity).
  assert (S : int_safe k z = false) by (destruct k; try discriminate Hk; vm_compute; reflexivity).
  exists z, (leb128 (wire_num k z)), (int_back k z).
  split; [exact R|]. split; [now apply int_serialize_spec|]. split; [|now apply int_back_unsafe].
  rewrite <- (app_nil_r (leb128 _)) at 1. now apply int_roundtrip.
Qed.
