(** C85: equal values and their bytes. *)
From Verif Require Import Base Varint WireFmt Utf8 Types Ser Spec De Log Hash ValInd SerProofs TypeProofs EqProofs
  DeProofs RoundTrip MergeProofs NormProofs Examples EqBytes PropDe.
From Coq Require Import Permutation.

(** Without [HashMap], [Map] and fields left out of [==]: two values are equal if and only if they have the same bytes,
    however they were built, whatever their caches and runtimes. *)
Theorem c85_canonical : forall m1 m2 t a b h1 h2,
  compared false t = true -> ty_ok t = true -> wt t a = true -> wt t b = true -> lossless t a = true -> lossless t b = true ->
  lenN (enc a) < 2 ^ 32 -> lenN (enc b) < 2 ^ 32 ->
  (veqb a b = true <-> to_bytes m1 a h1 = to_bytes m2 b h2).
Proof.
  intros m1 m2 t a b h1 h2 C O Wa Wb La Lb Na Nb.
  destruct (c10_round_trip m1 Debug t a h1 O Wa La Na) as (x & va & Ea & Da & -> & _ & _).
  destruct (c10_round_trip m2 Debug t b h2 O Wb Lb Nb) as (y & vb & Eb & Db & -> & _ & _). split; intros H.
  - pose proof (equal_same t a b C Wa Wb H) as Q.
    apply lossless_and in La. destruct La as (Ra & _). apply lossless_and in Lb. destruct Lb as (Rb & _).
    pose proof (proj1 (large_map_keys m1 t a h1 O Wa Na) Ra). pose proof (proj1 (large_map_keys m2 t b h2 O Wb Nb) Rb). congruence.
  - rewrite Ea, Eb in H. injection H as ->. rewrite Da in Db. injection Db as Db.
    rewrite <- (veqb_norm a b rt_default rt_default), <- Db. destruct (veqb_equiv t) as (Rf & _). apply Rf. now apply wt_norm.
Qed.
Print Assumptions c85_canonical.

(** With them: equal values of a type without left-out fields have the same number of bytes, and the same bytes but for their order. *)
Theorem c85_same_size : forall m1 m2 t a b h1 h2 x y,
  compared true t = true -> ty_ok t = true -> wt t a = true -> wt t b = true -> lenN (enc a) < 2 ^ 32 ->
  veqb a b = true -> to_bytes m1 a h1 = Ok x -> to_bytes m2 b h2 = Ok y -> length x = length y /\ Permutation x y.
Proof.
  intros m1 m2 t a b h1 h2 x y C O Wa Wb Na E Ea Eb. pose proof (equal_perm t a b C Wa Wb E) as P.
  assert (Nb : lenN (enc b) < 2 ^ 32) by (unfold lenN in *; now rewrite <- (Permutation_length P)).
  destruct (large_map_keys m1 t a h1 O Wa Na) as [A1 A2]. destruct (large_map_keys m2 t b h2 O Wb Nb) as [B1 B2].
  destruct (writable a); [rewrite A1 in Ea by reflexivity|rewrite A2 in Ea by reflexivity; discriminate].
  destruct (writable b); [rewrite B1 in Eb by reflexivity|rewrite B2 in Eb by reflexivity; discriminate].
  injection Ea as <-. injection Eb as <-. split; [now apply Permutation_length|exact P].
Qed.
Print Assumptions c85_same_size.

(** Values are equal if and only if what their bytes are decoded to is, for every type. *)
Theorem c85_decoded : forall m1 m2 m t a b h1 h2 x y va vb,
  ty_ok t = true -> wt t a = true -> wt t b = true -> lossless t a = true -> lossless t b = true ->
  lenN (enc a) < 2 ^ 32 -> lenN (enc b) < 2 ^ 32 ->
  to_bytes m1 a h1 = Ok x -> to_bytes m2 b h2 = Ok y -> deserialize m t x = Ok (va, []) -> deserialize m t y = Ok (vb, []) ->
  veqb va vb = veqb a b.
Proof.
  intros m1 m2 m t a b h1 h2 x y va vb O Wa Wb La Lb Na Nb Ea Eb Da Db.
  destruct (c10_round_trip m1 m t a h1 O Wa La Na) as (x' & va' & Ea' & Da' & -> & _ & _).
  destruct (c10_round_trip m2 m t b h2 O Wb Lb Nb) as (y' & vb' & Eb' & Db' & -> & _ & _).
  rewrite Ea in Ea'. injection Ea' as <-. rewrite Eb in Eb'. injection Eb' as <-. rewrite Da in Da'. injection Da' as ->. rewrite Db in Db'. injection Db' as ->.
  apply veqb_norm.
Qed.
Print Assumptions c85_decoded.

(** Equal values do not always have the same bytes: a [HashMap] is written in its own order, a [Map] in the order of
    insertion, and a field left out of [==] is written. *)
Theorem c85_order_refuted :
  let same_bytes t a b := wt t a && wt t b && lossless t a && lossless t b && veqb a b = true ->
    to_bytes Release a fresh_store = to_bytes Release b fresh_store in
  (exists k t a b, ty_ok (THash k t) = true /\ ~ same_bytes (THash k t) a b) /\
  (exists k t a b, ty_ok (TMap k t) = true /\ ~ same_bytes (TMap k t) a b) /\
  (exists si fs a b, ty_ok (TStruct si fs) = true /\ ~ same_bytes (TStruct si fs) a b).
Proof.
  cbn zeta. split; [|split].
  - exists (TInt U8), TBool, (VHash [(VInt U8 1, VBool true); (VInt U8 2, VBool false)]), (VHash [(VInt U8 2, VBool false); (VInt U8 1, VBool true)]).
    split; [reflexivity|]. intros H. specialize (H eq_refl). vm_compute in H. discriminate H.
  - exists K8, (TInt U8), (VMap ex_rt [(1, VInt U8 5); (2, VInt U8 6)]), (VMap ex_rt [(2, VInt U8 6); (1, VInt U8 5)]).
    split; [reflexivity|]. intros H. specialize (H eq_refl). vm_compute in H. discriminate H.
  - set (f := mkF 0 false false false).
    exists (mkS true false), [(f, TInt U8)], (VStruct true None [(f, VInt U8 1)]), (VStruct true None [(f, VInt U8 2)]).
    split; [reflexivity|]. intros H. specialize (H eq_refl). vm_compute in H. discriminate H.
Qed.
Print Assumptions c85_order_refuted.

Example c85_case :
  compared false tPoint = true /\ compared false tAll = false /\ compared true tAll = true /\
  to_bytes Release (vPoint ex_rt 1 2 3) fresh_store = to_bytes Debug (vPoint rt_default 1 2 3) junk /\
  to_bytes Release (vPoint ex_rt 1 2 3) fresh_store <> to_bytes Release (vPoint ex_rt 1 2 4) fresh_store.
Proof. vm_compute. repeat split; discriminate. Qed.
