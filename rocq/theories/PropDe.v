(** C10-C18, C38-C41: decoding. *)
From Verif Require Import Base Varint WireFmt Utf8 Types Ser Spec De Hash ValInd SerProofs TypeProofs EqProofs
  DeProofs RoundTrip MergeProofs NormProofs Utf8Proofs HashProofs Examples.
From Coq Require Import Permutation.

(** ** C10.  Writer and reader may be built differently; [norm rt_default] is the value with
    every runtime as a fresh decode sets it. *)
Theorem c10_round_trip : forall m m' t v h,
  ty_ok t = true -> wt t v = true -> lossless t v = true -> lenN (enc v) < 2 ^ 32 ->
  exists bs v', to_bytes m v h = Ok bs /\ deserialize m' t bs = Ok (v', []) /\
    v' = norm rt_default v /\ wt t v' = true /\ veqb v v' = true.
Proof.
  intros m m' t v h O W L Hl. exists (enc v), (norm rt_default v).
  pose proof L as L'. apply lossless_and in L'. destruct L' as (Wr & _).
  split; [now apply (large_map_keys m t v h O W Hl)|].
  assert (R : merge m' t (dflt t rt_default) (enc v) = (norm rt_default v, Ok [])).
  { pose proof (roundtrip m' t O rt_default v [] W L) as R. rewrite app_nil_r in R. apply R; [lia|auto]. }
  split; [unfold deserialize; now rewrite R|]. split; [reflexivity|].
  split; [now apply wt_norm|now apply (veqb_norm_self t)].
Qed.
Print Assumptions c10_round_trip.
Example c10_case : lossless tAll (vAll ex_rt) = true /\
  (do bs <- to_bytes Debug (vAll ex_rt) junk; deserialize Release tAll bs) = Ok (vAll rt_default, []).
Proof. vm_compute. auto. Qed.

(** The side conditions are needed: an [i8] outside the half range, and a key outside the
    key type's range (which [handle] can put into a map, C34), do not survive. *)
Theorem c10_unsafe_int_refuted :
  ~ (forall t v bs, ty_ok t = true -> wt t v = true -> to_bytes Debug v junk = Ok bs ->
     deserialize Debug t bs = Ok (v, [])).
Proof.
  intros H. specialize (H (TInt I8) (VInt I8 64) [128; 1] eq_refl eq_refl eq_refl). vm_compute in H. discriminate H.
Qed.
Print Assumptions c10_unsafe_int_refuted.

(** ** C11 *)
Theorem c11_nested : forall m m' t v h rest,
  ty_ok t = true -> wt t v = true -> lossless t v = true -> lenN (delimited v (enc v)) < 2 ^ 32 ->
  exists bs h', write_nested m v h = Ok (bs, h') /\
    de_nested m' (wty t) (merge m' t) (dflt t rt_default) (bs ++ rest) = Ok (norm rt_default v, rest).
Proof.
  intros m m' t v h rest O W L Hl. pose proof L as L'. apply lossless_and in L'. destruct L' as (Wr & _).
  destruct (write_nested_spec v (wt_ser_ok t v O W Wr) Hl m h) as (h' & E).
  exists (delimited v (enc v)), h'. split; [exact E|].
  apply de_nested_rt; try assumption; [now apply roundtrip|]. pose proof (delimited_len v (enc v)). lia.
Qed.
Print Assumptions c11_nested.

(** A sequence of nested values is cut apart in the only way: each read takes exactly what
    one write produced. *)
Fixpoint read_all (m : mode) (ts : list ty) (bs : bytes) : res (list val * bytes) :=
  match ts with
  | [] => Ok ([], bs)
  | t :: ts' => do (x, bs) <- de_nested m (wty t) (merge m t) (dflt t rt_default) bs;
                do (l, bs) <- read_all m ts' bs; Ok (x :: l, bs)
  end.
Theorem c11_sequence : forall m tvs rest,
  Forall (fun p => ty_ok (fst p) = true /\ wt (fst p) (snd p) = true /\ lossless (fst p) (snd p) = true /\
                   lenN (enc (snd p)) < 2 ^ 32) tvs ->
  read_all m (map fst tvs) (flat_map (fun p => delimited (snd p) (enc (snd p))) tvs ++ rest) =
    Ok (map (fun p => norm rt_default (snd p)) tvs, rest).
Proof.
  induction tvs as [|[t v] tvs IH]; intros rest F; [reflexivity|]. inversion F as [|? ? (O & W & L & Hl) F']; subst.
  cbn [map flat_map read_all fst snd] in *. rewrite <- app_assoc.
  rewrite (de_nested_rt m t rt_default v) by (try assumption; try (now apply roundtrip); lia).
  cbn [bind]. now rewrite IH.
Qed.
Print Assumptions c11_sequence.
Example c11_case :
  (do (a, h) <- write_nested Debug (vPoint ex_rt 1 (-1) 0) junk;
   do (b, h) <- write_nested Debug (VInt U16 300) h;
   read_all Release [tPoint; TInt U16] (a ++ b ++ [255])) =
  Ok ([vPoint rt_default 1 (-1) 0; VInt U16 300], [255]).
Proof. vm_compute. reflexivity. Qed.

(** ** C12.  [left_out] is what the encoder leaves out (Spec.v), [dflt] what the decoder
    starts from. *)
Theorem c12_omission : forall t x r, ty_ok t = true -> wt t x = true ->
  (left_out x (enc x) = true -> norm r x = dflt t r) /\
  (veqb x (dflt t r) = false -> left_out x (enc x) = false).
Proof.
  intros t x r O W. split; [now apply left_out_dflt|]. intros N.
  destruct (left_out x (enc x)) eqn:L; [|reflexivity].
  rewrite <- (left_out_dflt t x r O W L), (veqb_norm_self t x r O W) in N. discriminate N.
Qed.
Print Assumptions c12_omission.
(** ... and it is what the model of the serializer really does: an omitted field writes nothing. *)
Theorem c12_omitted_writes_nothing : forall m t fn a x ser h,
  ty_ok t = true -> wt t x = true -> writable x = true -> lenN (slot_enc ((Some fn, true), x)) < 2 ^ 32 -> fn <= FIELD_NUMBER_MAX ->
  all_ok a x h -> (forall h, all_ok a x h -> exists h', ser h = Ok (enc x, h') /\ forall b, h' b = h b) ->
  exists h', ser_nested m (Some fn) true a x ser h =
    Ok (if left_out x (enc x) then [] else leb128 (tag_num fn (wty t)) ++ delimited x (enc x), h').
Proof.
  intros m t fn a x ser h O W Wr L F A H.
  destruct (ser_nested_spec m (Some fn) true a x ser h (wt_ser_ok t x O W Wr) L F A H) as (h' & E & _).
  exists h'. rewrite E. cbn [slot_enc is_some andb]. unfold enc_tagged. now rewrite (wt_vwty t x W).
Qed.
Print Assumptions c12_omitted_writes_nothing.
Example c12_case :
  left_out (VList ex_rt []) (enc (VList ex_rt [])) = true /\ left_out (VList ex_rt [VInt U8 0]) (enc (VList ex_rt [VInt U8 0])) = false /\
  left_out (VInt I32 0) (enc (VInt I32 0)) = true /\ left_out (vNone ex_rt) (enc (vNone ex_rt)) = false.
Proof. vm_compute. auto. Qed.

(** ** C13, C14.  [a] is any sequence of complete fields, [p] one complete field that is not
    the message's ([foreign]: unknown number, or known number with another wire type), [b]
    any bytes. *)
Theorem c13_c14_foreign_skipped : forall m si fts v a p b fn w,
  ty_ok (TStruct si fts) = true -> wt (TStruct si fts) v = true ->
  bytes_ok a -> fields_seq a -> foreign fts fn w -> fn <= FIELD_NUMBER_MAX ->
  (exists q body, p = q ++ body /\ one_varint 5 q (tag_num fn w) /\ whole w body /\ skippable m w body) ->
  merge m (TStruct si fts) v (a ++ p ++ b) = merge m (TStruct si fts) v (a ++ b).
Proof. exact foreign_skipped. Qed.
Print Assumptions c13_c14_foreign_skipped.

Theorem c13_c14_enum : forall m st vs v va tg a p b fn w,
  ty_ok (TEnum st vs) = true -> wt (TEnum st vs) v = true ->
  one_varint 5 tg (fst (fst va)) -> find_variant vs (fst (fst va)) = Some va ->
  bytes_ok a -> fields_seq a -> foreign (snd va) fn w -> fn <= FIELD_NUMBER_MAX ->
  (exists q body, p = q ++ body /\ one_varint 5 q (tag_num fn w) /\ whole w body /\ skippable m w body) ->
  merge m (TEnum st vs) v (tg ++ a ++ p ++ b) = merge m (TEnum st vs) v (tg ++ a ++ b).
Proof. exact foreign_skipped_enum. Qed.
Print Assumptions c13_c14_enum.

(** The exception: overflow checks and a varint of three bytes or more. *)
Theorem c13_long_varint_panics : forall si fts v a p b fn,
  ty_ok (TStruct si fts) = true -> wt (TStruct si fts) v = true ->
  bytes_ok a -> fields_seq a -> foreign fts fn Varint -> fn <= FIELD_NUMBER_MAX ->
  (exists q body, p = q ++ body /\ one_varint 5 q (tag_num fn Varint) /\ whole Varint body /\ 3 <= lenN body) ->
  forall v1, merge Debug (TStruct si fts) v a = (v1, Ok []) ->
  merge Debug (TStruct si fts) v (a ++ p ++ b) = (v1, Panic).
Proof. exact foreign_panics. Qed.
Print Assumptions c13_long_varint_panics.

(** What the theorem says about the field of the mismatched number itself. *)
Theorem c14_field_untouched : forall m fts fs fn w body rest,
  foreign fts fn w -> wt_fields fts fs = true -> whole w body -> skippable m w body ->
  merge_field m (fmergers m fts) fs fn w (body ++ rest) = (fs, Ok rest).
Proof.
  intros m fts fs fn w body rest F W Wb S. rewrite merge_field_foreign by assumption. now rewrite skip_ok.
Qed.
Print Assumptions c14_field_untouched.
(** The hypotheses are met by field 7 (unknown) and by field 1 as a string. *)
Example c13_foreign : forall fi t, In (fi, t) [(fst_ 0, TInt I32); (fst_ 1, TInt I32); (fst_ 2, TInt I32)] -> f_tag fi = 7 -> wty t <> Varint.
Proof. intros fi t H E. repeat (destruct H as [H|H]; [inversion H; subst; discriminate E|]). destruct H. Qed.
Example c13_case :
  merge Debug tPoint (vPoint ex_rt 9 9 9) ([0; 2] ++ [56; 255; 1] ++ [10; 2; 65; 66] ++ [8; 4]) =
  merge Debug tPoint (vPoint ex_rt 9 9 9) ([0; 2] ++ [8; 4]) /\
  merge Debug tPoint (vPoint ex_rt 9 9 9) ([0; 2] ++ [8; 4]) = (vPoint ex_rt 1 2 9, Ok []) /\
  merge Debug tPoint (vPoint ex_rt 9 9 9) ([0; 2] ++ [56; 255; 255; 1] ++ [8; 4]) = (vPoint ex_rt 1 9 9, Panic) /\
  merge Release tPoint (vPoint ex_rt 9 9 9) ([0; 2] ++ [56; 255; 255; 1] ++ [8; 4]) = (vPoint ex_rt 1 2 9, Ok []).
Proof. vm_compute. auto. Qed.

(** ** C15.  Pieces are (number, wire type, bytes); [wholes] says each is a complete field. *)
Theorem c15_field_order : forall m si fts ps ps' v v', Permutation ps ps' ->
  NoDup (map (fun p => fst (fst p)) ps) -> wholes ps ->
  merge m (TStruct si fts) v (bytes_of ps) = (v', Ok []) ->
  merge m (TStruct si fts) v (bytes_of ps') = (v', Ok []).
Proof. exact merge_permuted. Qed.
Print Assumptions c15_field_order.
Theorem c15_field_order_enum : forall m st vs ps ps' tg v v', Permutation ps ps' ->
  NoDup (map (fun p => fst (fst p)) ps) -> wholes ps ->
  (exists n, one_varint 5 tg n /\ n < 2 ^ 32) ->
  merge m (TEnum st vs) v (tg ++ bytes_of ps) = (v', Ok []) ->
  merge m (TEnum st vs) v (tg ++ bytes_of ps') = (v', Ok []).
Proof. exact merge_permuted_enum. Qed.
Print Assumptions c15_field_order_enum.
Example c15_case :
  merge Debug tPoint (vPoint ex_rt 9 9 9) (bytes_of [(0, Varint, [0; 2]); (2, Varint, [16; 6]); (1, Varint, [8; 4])]) =
  merge Debug tPoint (vPoint ex_rt 9 9 9) (bytes_of [(1, Varint, [8; 4]); (0, Varint, [0; 2]); (2, Varint, [16; 6])]) /\
  merge Debug tPoint (vPoint ex_rt 9 9 9) [0; 2; 16; 6; 8; 4] = (vPoint ex_rt 1 2 3, Ok []).
Proof. vm_compute. auto. Qed.

(** ** C16 *)
Theorem c16_incremental : forall m t v a b, whole_seq t a ->
  merge m t v (a ++ b) =
  match merge m t v a with
  | (v1, Ok _) => merge m t v1 b
  | failed => failed
  end.
Proof.
  intros m t v a b H. rewrite (merge_incremental m t v a b H).
  destruct (merge m t v a) as [v1 [r|e| |]]; reflexivity.
Qed.
Print Assumptions c16_incremental.

Theorem c16_last_scalar_wins : forall m si fts v p1 p2 b fn,
  ty_ok (TStruct si fts) = true -> wt (TStruct si fts) v = true ->
  whole_field fn Varint p1 -> whole_field fn Varint p2 -> bytes_ok p1 ->
  (forall fi t, In (fi, t) fts -> f_tag fi = fn -> wty t = Varint) ->
  forall v1 v2, merge m (TStruct si fts) v p1 = (v1, Ok []) -> merge m (TStruct si fts) v1 p2 = (v2, Ok []) ->
  merge m (TStruct si fts) v p2 = (v2, Ok []) /\
  merge m (TStruct si fts) v (p1 ++ p2 ++ b) = merge m (TStruct si fts) v (p2 ++ b).
Proof. exact last_scalar_wins. Qed.
Print Assumptions c16_last_scalar_wins.

(** Merging an encoded sequence into a sequence appends. *)
Theorem c16_sequences_append : forall m t r old l,
  ty_ok t = true -> forallb (wt t) l = true -> forallb (lossless t) l = true ->
  lenN (enc_items l) < 2 ^ 64 ->
  merge m (TVec t) (VVec old) (enc (VVec l)) = (VVec (old ++ map (norm rt_default) l), Ok []) /\
  merge m (TList t) (VList r old) (enc (VList r l)) = (VList r (old ++ norm_items r (lenN old) l), Ok []).
Proof.
  intros m t r old l O W L Hl. assert (X : forallb writable l = true /\ forallb ints_safe l = true /\ forallb (keys_in t) l = true).
  { rewrite !forallb_forall in *. repeat split; intros x Hx; specialize (L x Hx); apply lossless_and in L; tauto. }
  destruct X as (X1 & X2 & X3). unfold enc_items in Hl. split; cbn [merge enc].
  - now rewrite (vec_rt m t (roundtrip m t O) l old).
  - now rewrite (list_rt m t r (roundtrip m t O) l old).
Qed.
Print Assumptions c16_sequences_append.
(** Every encoding ends where a component ends: what two equal-typed values encode to can
    be concatenated and merged in one go. *)
Theorem c16_encodings_concatenate : forall m t v x b,
  piecewise t = true -> ty_ok t = true -> wt t x = true -> writable x = true -> lenN (enc x) < 2 ^ 64 ->
  whole_seq t (enc x) /\
  merge m t v (enc x ++ b) =
  match merge m t v (enc x) with
  | (v1, Ok _) => merge m t v1 b
  | failed => failed
  end.
Proof.
  intros m t v x b P O W Wr L. pose proof (enc_whole_seq t x P O W Wr L) as H.
  split; [exact H|now apply c16_incremental].
Qed.
Print Assumptions c16_encodings_concatenate.
Example c16_case :
  merge Debug (TVec (TInt U8)) (VVec [VInt U8 1]) ([2; 3] ++ [4]) = (VVec [VInt U8 1; VInt U8 2; VInt U8 3; VInt U8 4], Ok []) /\
  merge Debug tPoint (vPoint ex_rt 0 0 0) ([0; 2; 0; 6] ++ [8; 4]) = (vPoint ex_rt 3 2 0, Ok []).
Proof. vm_compute. auto. Qed.

(** ** C17 *)
Theorem c17_total : forall m t v bs, ty_ok t = true -> wt t v = true -> bytes_ok bs ->
  let '(v', o) := merge m t v bs in
  wt t v' = true /\
  match o with
  | Ok rest => exists p, bs = p ++ rest /\ (wty t = Sized -> rest = [])
  | Err _ => True
  | Panic => exists a b, bs = a ++ b /\
      ((exists n rest, uv_deserialize m 64 b = Ok (n, rest) /\ 2 ^ 63 <= n) \/
       (m = Debug /\ exists k, uv_deserialize m (ibits k) b = Panic))
  | NoFuel => False
  end.
Proof.
  intros m t v bs O W B. pose proof (merge_good m t O v bs W B) as G. destruct (merge m t v bs) as [v' o].
  destruct G as [G1 G2]. split; [exact G1|]. destruct (wty t); destruct o as [rest|e| |]; cbn in G2; auto.
  - destruct G2 as (p & E & _). exists p. split; [exact E|discriminate].
  - destruct G2 as (a & b & E & H). exists a, b. split; [exact E|]. destruct H as [H|(k & H)]; [auto|].
    right. split; [|eauto]. destruct m; [reflexivity|]. now apply uv_de_loop_release_np in H.
  - subst rest. exists bs. split; [now rewrite app_nil_r|auto].
  - destruct G2 as (a & b & E & H). exists a, b. split; [exact E|]. destruct H as [H|(k & H)]; [auto|].
    right. split; [|eauto]. destruct m; [reflexivity|]. now apply uv_de_loop_release_np in H.
Qed.
Print Assumptions c17_total.

Theorem c17_deserialize : forall m t bs, ty_ok t = true -> bytes_ok bs ->
  match deserialize m t bs with
  | Ok (v, _) => wt t v = true
  | NoFuel => False
  | _ => True
  end.
Proof.
  intros m t bs O B. pose proof (c17_total m t (dflt t rt_default) bs O (wt_dflt t O rt_default) B) as H.
  unfold deserialize. destruct (merge m t _ bs) as [v o]. destruct H as [H1 H2]. destruct o; cbn; auto.
Qed.
Print Assumptions c17_deserialize.
Example c17_case :
  merge Release tPoint (vPoint ex_rt 1 2 3) [0; 2; 58; 128; 128; 128; 128; 128; 128; 128; 128; 128; 1; 8; 4] = (vPoint ex_rt 1 2 3, Panic) /\
  merge Release tPoint (vPoint ex_rt 1 2 3) [0; 8; 7] = (vPoint ex_rt 4 2 3, Err InvalidData) /\
  merge Release tPoint (vPoint ex_rt 1 2 3) [0; 8; 8] = (vPoint ex_rt 4 2 3, Err UnexpectedEof).
Proof. vm_compute. auto. Qed.

(** ** C18 *)
Theorem c18_promise_ignored : forall m t v n body, wty t = Sized -> lenN body <= n -> n < 2 ^ 64 ->
  merge_nested m (wty t) (merge m t) Sized v (leb128 n ++ body) =
  merge_nested m (wty t) (merge m t) Sized v (leb128 (lenN body) ++ body).
Proof. exact truncated_nested. Qed.
Print Assumptions c18_promise_ignored.

Theorem c18_cut_accepted : forall m t v a b v2 rest, wty t = Sized -> whole_seq t a -> lenN (a ++ b) < 2 ^ 64 ->
  merge m t v (a ++ b) = (v2, Ok rest) ->
  exists v1, merge m t v a = (v1, Ok []) /\
    merge_nested m (wty t) (merge m t) Sized v (leb128 (lenN (a ++ b)) ++ a) = (v1, Ok []).
Proof. exact cut_at_boundary. Qed.
Print Assumptions c18_cut_accepted.

(** The property one would expect: the encoding of a value, cut short, is rejected. *)
Theorem c18_truncation_rejected_refuted :
  ~ (forall t v bs cut rest, ty_ok t = true -> wt t v = true -> to_bytes Debug v junk = Ok bs ->
     bs = cut ++ rest -> rest <> [] -> exists e, deserialize Debug t cut = Err e).
Proof.
  intros H.
  assert (E : to_bytes Debug (VList ex_rt [vPoint ex_rt 1 2 3]) junk = Ok ([6; 0; 2; 8; 4] ++ [16; 6])) by reflexivity.
  destruct (H (TList tPoint) (VList ex_rt [vPoint ex_rt 1 2 3]) _ [6; 0; 2; 8; 4] [16; 6] eq_refl eq_refl E eq_refl) as (e & X); [discriminate|].
  vm_compute in X. discriminate X.
Qed.
Print Assumptions c18_truncation_rejected_refuted.
Example c18_case : deserialize Debug (TList tPoint) [6; 0; 2; 8; 4] =
  Ok (VList rt_default [vPoint (nested rt_default 0) 1 2 0], []).
Proof. vm_compute. reflexivity. Qed.

(** ** C38.  Inside a variant an enum decodes like a struct with the variant's fields. *)
Theorem c38_unknown_variant : forall m st vs v tg n rest,
  wt (TEnum st vs) v = true -> one_varint 5 tg n -> n < 2 ^ 32 ->
  (forall va, In va vs -> fst (fst va) <> n) -> merge m (TEnum st vs) v (tg ++ rest) = (v, Err InvalidData).
Proof. exact enum_unknown. Qed.
Print Assumptions c38_unknown_variant.
Theorem c38_same_variant : forall m st vs tag c r fs va tg rest, ty_ok (TEnum st vs) = true ->
  one_varint 5 tg tag -> In va vs -> fst (fst va) = tag -> forall fs' o,
  merge m (TStruct (mkS c st) (snd va)) (VStruct c r fs) rest = (VStruct c r fs', o) ->
  merge m (TEnum st vs) (VEnum tag c r fs) (tg ++ rest) = (VEnum tag c r fs', o).
Proof. exact enum_same. Qed.
Print Assumptions c38_same_variant.
Theorem c38_other_variant : forall m st vs tag c lg p t0 fs va tg rest, ty_ok (TEnum st vs) = true ->
  one_varint 5 tg (fst (fst va)) -> In va vs -> fst (fst va) <> tag -> forall fs' o,
  let r' := mkRt lg (Child p (fst (fst va))) in
  merge m (TStruct (mkS (snd (fst va)) st) (snd va)) (dflt (TStruct (mkS (snd (fst va)) st) (snd va)) r') rest
    = (VStruct (snd (fst va)) (if st then Some r' else None) fs', o) ->
  merge m (TEnum st vs) (VEnum tag c (if st then Some (mkRt lg (Child p t0)) else None) fs) (tg ++ rest) =
    (VEnum (fst (fst va)) (snd (fst va)) (if st then Some r' else None) fs', o).
Proof. exact enum_switch. Qed.
Print Assumptions c38_other_variant.
Example c38_case :
  let x := vPoint (nested (nested ex_rt 1) 0) in
  merge Debug (tMaybe tPoint) (vNone ex_rt) [1; 2; 2; 0; 2] = (vSome ex_rt (x 1 0 0)%Z, Ok []) /\
  merge Debug (tMaybe tPoint) (vSome ex_rt (x 1 2 3)%Z) [1; 2; 2; 0; 8] = (vSome ex_rt (x 4 2 3)%Z, Ok []) /\
  merge Debug (tMaybe tPoint) (vSome ex_rt (x 1 2 3)%Z) [0] = (vNone ex_rt, Ok []) /\
  merge Debug (tMaybe tPoint) (vSome ex_rt (x 1 2 3)%Z) [2; 2; 2; 0; 8] = (vSome ex_rt (x 1 2 3)%Z, Err InvalidData).
Proof. vm_compute. auto. Qed.

(** ** C39 *)
Theorem c39_equivalence : forall t,
  (forall a, wt t a = true -> veqb a a = true) /\
  (forall a b, wt t a = true -> wt t b = true -> veqb a b = true -> veqb b a = true) /\
  (forall a b c, wt t a = true -> wt t b = true -> wt t c = true ->
     veqb a b = true -> veqb b c = true -> veqb a c = true).
Proof. exact veqb_equiv. Qed.
Print Assumptions c39_equivalence.
(** [norm r] replaces every runtime; two values equal up to runtimes are equal. *)
Theorem c39_runtimes_ignored : forall t a b r s, ty_ok t = true -> wt t a = true ->
  veqb (norm r a) (norm s b) = veqb a b /\ veqb a (norm r a) = true.
Proof. intros t a b r s O W. split; [apply veqb_norm|now apply (veqb_norm_self t)]. Qed.
Print Assumptions c39_runtimes_ignored.
Theorem c39_hash_agrees : forall t a b, hash_ty t = true -> wt t a = true -> wt t b = true ->
  veqb a b = true -> hfeed a = hfeed b.
Proof. intros t a b H Wa Wb E. now apply (equal_feeds t). Qed.
Print Assumptions c39_hash_agrees.
Example c39_case :
  veqb (vAll ex_rt) (vAll rt_default) = true /\
  veqb (VMap ex_rt [(1, VBool true); (2, VBool false)]) (VMap rt_default [(2, VBool false); (1, VBool true)]) = true /\
  hash_ty tPoint = true /\ hfeed (vPoint ex_rt 1 2 3) = [HInt I32 1; HInt I32 2; HInt I32 3] /\
  veqb (vPoint ex_rt 1 2 3) (vPoint ex_rt 1 2 4) = false /\
  (let f := mkF 0 true false false in
   veqb (VStruct true (Some ex_rt) [(f, VInt U8 1)]) (VStruct true (Some ex_rt) [(f, VInt U8 2)])) = true.
Proof. vm_compute. auto 7. Qed.

(** ** C40 *)
Theorem c40_array_any_input : forall m n t l bs, exists new r,
  merge m (TArr n t) (VArr l) bs = (VArr (new ++ skipn (length new) l), r) /\ (length new <= length l)%nat /\
  (forall rest, r = Ok rest -> rest = []).
Proof. exact array_keeps_rest. Qed.
Print Assumptions c40_array_any_input.
(** Fewer items than the array has: a prefix is overwritten.  As many: surplus is ignored. *)
Theorem c40_array_prefix : forall m n t old xs surplus,
  ty_ok t = true -> forallb (wt t) xs = true -> forallb (lossless t) xs = true ->
  lenN (enc_items xs) < 2 ^ 64 -> (length xs <= length old)%nat -> (surplus = [] \/ length xs = length old) ->
  merge m (TArr n t) (VArr old) (enc_items xs ++ surplus) =
  (VArr (map (norm rt_default) xs ++ skipn (length xs) old), Ok []).
Proof. exact array_prefix. Qed.
Print Assumptions c40_array_prefix.
Theorem c40_tuple_all_or_none : forall m ts l bs, wt (TTup ts) (VTup l) = true ->
  (exists l', merge m (TTup ts) (VTup l) bs = (VTup l', Ok []) /\ length l' = length ts) \/
  (exists r, merge m (TTup ts) (VTup l) bs = (VTup l, r) /\ forall rest, r <> Ok rest).
Proof. exact tuple_all_or_none. Qed.
Print Assumptions c40_tuple_all_or_none.
Theorem c40_tuple_surplus : forall m ts l old surplus,
  ty_ok (TTup ts) = true -> wt (TTup ts) (VTup l) = true -> lossless (TTup ts) (VTup l) = true ->
  lenN (enc_items l) < 2 ^ 64 ->
  merge m (TTup ts) (VTup old) (enc_items l ++ surplus) = (VTup (map (norm rt_default) l), Ok []).
Proof. exact tup_surplus. Qed.
Print Assumptions c40_tuple_surplus.
Theorem c40_tuple_missing : forall m ts1 t ts2 l old, ty_ok (TTup (ts1 ++ t :: ts2)) = true ->
  wt (TTup ts1) (VTup l) = true -> lossless (TTup ts1) (VTup l) = true -> lenN (enc_items l) < 2 ^ 64 ->
  merge m (TTup (ts1 ++ t :: ts2)) (VTup old) (enc_items l) = (VTup old, Err UnexpectedEof).
Proof. exact tuple_missing. Qed.
Print Assumptions c40_tuple_missing.
Example c40_case :
  merge Debug (TArr 3 (TInt U8)) (VArr [VInt U8 1; VInt U8 2; VInt U8 3]) [9; 8] = (VArr [VInt U8 9; VInt U8 8; VInt U8 3], Ok []) /\
  merge Debug (TArr 1 (TInt U8)) (VArr [VInt U8 1]) [9; 8; 255] = (VArr [VInt U8 9], Ok []) /\
  merge Debug (TTup [TInt U8; TBool]) (VTup [VInt U8 1; VBool false]) [9] = (VTup [VInt U8 1; VBool false], Err UnexpectedEof) /\
  merge Debug (TTup [TInt U8; TBool]) (VTup [VInt U8 1; VBool false]) [9; 1; 7] = (VTup [VInt U8 9; VBool true], Ok []).
Proof. vm_compute. auto. Qed.

(** ** C41.  [utf8_of] is the UTF-8 form of a code point in arithmetic (Spec.v). *)
Theorem c41_strings : forall m old bs,
  ((exists cs, bs = concat (map utf8_of cs) /\ Forall scalar cs) ->
     merge m TStr (VStr old) bs = (VStr bs, Ok [])) /\
  (~ (exists cs, bs = concat (map utf8_of cs) /\ Forall scalar cs) ->
     merge m TStr (VStr old) bs = (VStr old, Err InvalidData)).
Proof.
  intros m old bs. rewrite <- utf8_valid_iff. cbn [merge]. destruct (utf8_valid bs); split; intros H; try reflexivity.
  - now elim H.
  - discriminate H.
Qed.
Print Assumptions c41_strings.
Example c41_case :
  utf8_of 0x20AC = [226; 130; 172] /\ merge Debug TStr (VStr [97]) [226; 130; 172] = (VStr [226; 130; 172], Ok []) /\
  merge Debug TStr (VStr [97]) [237; 160; 128] = (VStr [97], Err InvalidData) /\
  merge Debug TStr (VStr [97]) [192; 128] = (VStr [97], Err InvalidData) /\
  concat (map utf8_of [0x48; 0x1F600]) = [0x48; 240; 159; 152; 128].
Proof. vm_compute. auto. Qed.
