(** The byte table of Utf8.v accepts exactly the UTF-8 forms of sequences of scalar values. *)
From Verif Require Import Base Utf8 Types Spec.

Lemma utf8_of_valid c r : scalar c -> utf8_valid r = true -> utf8_valid (utf8_of c ++ r) = true.
Proof.
  intros S R. unfold utf8_of, scalar in *.
  destruct (c <? 0x80) eqn:E1.
  { cbn [app utf8_valid]. destruct (c <=? 0x7F) eqn:X; [exact R|lia]. }
  destruct (c <? 0x800) eqn:E2.
  { cbn [app utf8_valid]. assert (c / 64 < 32) by (apply N.div_lt_upper_bound; lia).
    assert (2 <= c / 64) by (apply N.div_le_lower_bound; lia). assert (c mod 64 < 64) by (apply N.mod_lt; lia).
    unfold between. destruct (_ <=? 0x7F) eqn:X; [lia|].
    replace (0xC2 <=? 0xC0 + c / 64) with true by lia. replace (0xC0 + c / 64 <=? 0xDF) with true by lia. cbn [andb].
    rewrite R. lia. }
  destruct (c <? 0x10000) eqn:E3.
  { cbn [app utf8_valid]. 
    remember (c / 4096) as a. remember (c / 64 mod 64) as b. remember (c mod 64) as d.
    assert (C : c = a * 4096 + b * 64 + d).
    { subst. pose proof (N.div_mod c 64 ltac:(lia)). pose proof (N.div_mod (c / 64) 64 ltac:(lia)).
      rewrite N.div_div in * by lia. change (64 * 64) with 4096 in *. lia. }
    assert (d < 64) by (subst; apply N.mod_lt; lia). assert (b < 64) by (subst; apply N.mod_lt; lia).
    clear Heqa Heqb Heqd. unfold between. destruct (_ <=? 0x7F) eqn:X; [lia|].
    replace (0xE0 + a <=? 0xDF) with false by lia. rewrite andb_false_r.
    destruct (0xE0 + a =? 0xE0) eqn:Y1; [rewrite R; lia|]. destruct (0xE0 + a =? 0xED) eqn:Y2; [rewrite R; lia|].
    replace (0xE1 <=? 0xE0 + a) with true by lia. replace (0xE0 + a <=? 0xEF) with true by lia. cbn [andb]. rewrite R. lia. }
  cbn [app utf8_valid].
  remember (c / 262144) as a. remember (c / 4096 mod 64) as b. remember (c / 64 mod 64) as d. remember (c mod 64) as e.
  assert (C : c = a * 262144 + b * 4096 + d * 64 + e).
  { subst. pose proof (N.div_mod c 64 ltac:(lia)). pose proof (N.div_mod (c / 64) 64 ltac:(lia)).
    pose proof (N.div_mod (c / 4096) 64 ltac:(lia)).
    rewrite !N.div_div in * by lia. change (64 * 64) with 4096 in *. change (4096 * 64) with 262144 in *. lia. }
  assert (d < 64) by (subst; apply N.mod_lt; lia). assert (b < 64) by (subst; apply N.mod_lt; lia).
  assert (e < 64) by (subst; apply N.mod_lt; lia).
  clear Heqa Heqb Heqd Heqe. unfold between. destruct (_ <=? 0x7F) eqn:X; [lia|].
  replace (0xF0 + a <=? 0xDF) with false by lia. rewrite andb_false_r.
  replace (0xF0 + a =? 0xE0) with false by lia. replace (0xF0 + a =? 0xED) with false by lia.
  replace (0xF0 + a <=? 0xEF) with false by lia. rewrite andb_false_r.
  destruct (0xF0 + a =? 0xF0) eqn:Y1; [rewrite R; lia|].
  destruct (0xF0 + a <=? 0xF3) eqn:Y3.
  { replace (0xF1 <=? 0xF0 + a) with true by lia. cbn [andb]. rewrite R. lia. }
  replace (0xF1 <=? 0xF0 + a) with true by lia. cbn [andb].
  destruct (0xF0 + a =? 0xF4) eqn:Y2; [rewrite R; lia|]. lia.
Qed.

Lemma utf8_step b r : utf8_valid (b :: r) = true -> exists c r', b :: r = utf8_of c ++ r' /\ scalar c /\ utf8_valid r' = true.
Proof.
  assert (D64 : forall q s, s < 64 -> (q * 64 + s) / 64 = q /\ (q * 64 + s) mod 64 = s).
  { intros q s Hs. split.
    - symmetry. apply (N.div_unique _ 64 q s); lia.
    - symmetry. apply (N.mod_unique _ 64 q s); lia. }
  cbn [utf8_valid]. unfold scalar, utf8_of, between.
  destruct (b <=? 0x7F) eqn:E0.
  { intros H. exists b, r. replace (b <? 0x80) with true by lia. repeat split; auto. lia. }
  destruct r as [|b1 r1]; [discriminate|].
  destruct ((0xC2 <=? b) && (b <=? 0xDF)) eqn:E1.
  { intros H. rewrite !andb_true_iff in H. destruct H as [[H1 H2] H3].
    exists ((b - 0xC0) * 64 + (b1 - 0x80)), r1. destruct (D64 (b - 0xC0) (b1 - 0x80)) as [-> ->]; [lia|].
    replace (_ <? 0x80) with false by lia. replace (_ <? 0x800) with true by lia.
    repeat split; auto; [|lia]. cbn [app]. repeat f_equal; lia. }
  destruct r1 as [|b2 r2]; [discriminate|].
  assert (T3 : forall lo hi, 0xE0 <= b -> b <= 0xEF -> 0x80 <= lo -> hi <= 0xBF -> lo <= b1 -> b1 <= hi -> 0x80 <= b2 -> b2 <= 0xBF ->
    (b = 0xE0 -> lo = 0xA0) -> (b = 0xED -> hi = 0x9F) -> utf8_valid r2 = true ->
    exists c r', b :: b1 :: b2 :: r2 =
      (if c <? 0x80 then [c]
       else if c <? 0x800 then [0xC0 + c / 64; 0x80 + c mod 64]
       else if c <? 0x10000 then [0xE0 + c / 4096; 0x80 + c / 64 mod 64; 0x80 + c mod 64]
       else [0xF0 + c / 262144; 0x80 + c / 4096 mod 64; 0x80 + c / 64 mod 64; 0x80 + c mod 64]) ++ r' /\
      (c < 0xD800 \/ 0xE000 <= c <= 0x10FFFF) /\ utf8_valid r' = true).
  { intros lo hi H1 H2 H3 H4 H5 H6 H7 H8 H9 H10 H11.
    exists (((b - 0xE0) * 64 + (b1 - 0x80)) * 64 + (b2 - 0x80)), r2.
    destruct (D64 ((b - 0xE0) * 64 + (b1 - 0x80)) (b2 - 0x80)) as [X1 X2]; [lia|].
    destruct (D64 (b - 0xE0) (b1 - 0x80)) as [X3 X4]; [lia|].
    replace 4096 with (64 * 64) by reflexivity. rewrite <- N.div_div by lia. rewrite X1, X2, X3, X4.
    replace (_ <? 0x80) with false by lia. replace (_ <? 0x800) with false by lia. replace (_ <? 0x10000) with true by lia.
    repeat split; auto; [|lia]. cbn [app]. repeat f_equal; lia. }
  destruct (b =? 0xE0) eqn:E2.
  { intros H. rewrite !andb_true_iff in H. apply (T3 0xA0 0xBF); lia || tauto. }
  destruct (b =? 0xED) eqn:E3.
  { intros H. rewrite !andb_true_iff in H. apply (T3 0x80 0x9F); lia || tauto. }
  destruct ((0xE1 <=? b) && (b <=? 0xEF)) eqn:E4.
  { intros H. rewrite !andb_true_iff in H. apply (T3 0x80 0xBF); lia || tauto. }
  destruct r2 as [|b3 r3]; [discriminate|]. clear T3.
  assert (T4 : forall lo hi, 0xF0 <= b -> b <= 0xF4 -> 0x80 <= lo -> hi <= 0xBF -> lo <= b1 -> b1 <= hi -> 0x80 <= b2 -> b2 <= 0xBF ->
    0x80 <= b3 -> b3 <= 0xBF ->
    (b = 0xF0 -> lo = 0x90) -> (b = 0xF4 -> hi = 0x8F) -> utf8_valid r3 = true ->
    exists c r', b :: b1 :: b2 :: b3 :: r3 =
      (if c <? 0x80 then [c]
       else if c <? 0x800 then [0xC0 + c / 64; 0x80 + c mod 64]
       else if c <? 0x10000 then [0xE0 + c / 4096; 0x80 + c / 64 mod 64; 0x80 + c mod 64]
       else [0xF0 + c / 262144; 0x80 + c / 4096 mod 64; 0x80 + c / 64 mod 64; 0x80 + c mod 64]) ++ r' /\
      (c < 0xD800 \/ 0xE000 <= c <= 0x10FFFF) /\ utf8_valid r' = true).
  { intros lo hi H1 H2 H3 H4 H5 H6 H7 H8 H8' H8'' H9 H10 H11.
    exists ((((b - 0xF0) * 64 + (b1 - 0x80)) * 64 + (b2 - 0x80)) * 64 + (b3 - 0x80)), r3.
    destruct (D64 (((b - 0xF0) * 64 + (b1 - 0x80)) * 64 + (b2 - 0x80)) (b3 - 0x80)) as [Y1 Y2]; [lia|].
    destruct (D64 ((b - 0xF0) * 64 + (b1 - 0x80)) (b2 - 0x80)) as [X1 X2]; [lia|].
    destruct (D64 (b - 0xF0) (b1 - 0x80)) as [X3 X4]; [lia|].
    replace 262144 with (64 * 64 * 64) by reflexivity. replace 4096 with (64 * 64) by reflexivity.
    rewrite <- !N.div_div by lia. rewrite Y1, Y2, X1, X2, X3, X4.
    replace (_ <? 0x80) with false by lia. replace (_ <? 0x800) with false by lia. replace (_ <? 0x10000) with false by lia.
    repeat split; auto; [|lia]. cbn [app]. repeat f_equal; lia. }
  destruct (b =? 0xF0) eqn:E5.
  { intros H. rewrite !andb_true_iff in H. apply (T4 0x90 0xBF); lia || tauto. }
  destruct ((0xF1 <=? b) && (b <=? 0xF3)) eqn:E6.
  { intros H. rewrite !andb_true_iff in H. apply (T4 0x80 0xBF); lia || tauto. }
  destruct (b =? 0xF4) eqn:E7; [|discriminate].
  intros H. rewrite !andb_true_iff in H. apply (T4 0x80 0x8F); lia || tauto.
Qed.

Lemma utf8_of_nonempty c : utf8_of c <> [].
Proof. unfold utf8_of. repeat (destruct (_ <? _)); discriminate. Qed.

Lemma utf8_valid_iff bs : utf8_valid bs = true <-> exists cs, bs = concat (map utf8_of cs) /\ Forall scalar cs.
Proof.
  split.
  - remember (length bs) as n eqn:E. revert bs E. induction n as [n IH] using lt_wf_ind. intros bs -> H.
    destruct bs as [|b r]; [exists []; split; [reflexivity|constructor]|].
    apply utf8_step in H. destruct H as (c & r' & E & S & V).
    destruct (IH (length r')) with (bs := r') as (cs & -> & F); auto.
    { rewrite E, app_length. pose proof (utf8_of_nonempty c). destruct (utf8_of c); [congruence|]. cbn. lia. }
    exists (c :: cs). split; [exact E|now constructor].
  - intros (cs & -> & F). induction F as [|c cs S _ IH]; [reflexivity|]. cbn [map concat]. now apply utf8_of_valid.
Qed.
