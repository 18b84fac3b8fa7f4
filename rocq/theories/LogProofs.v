(** Log entries round-trip; buffer logger; pausing; path algebra. *)
From Verif Require Import Base Varint WireFmt Utf8 Types Ser Spec De Log ValInd SerProofs TypeProofs EqProofs
  DeProofs RoundTrip MergeProofs NormProofs.

(** ** Entries *)

(** What a [LogEntry] value can be: [u32] path segments and key, [u8] payload. *)
Definition entry_ok (e : entry) : Prop :=
  Forall (fun n => n < 2 ^ 32) (entry_path e) /\
  (forall k, entry_key e = Some k -> k < 2 ^ 32) /\ bytes_ok (entry_bytes e).

(** Bytes of an entry on the wire: its length and its encoding. *)
Definition entry_wire (e : entry) : bytes := let b := enc (entry_val e) in leb128 (lenN b) ++ b.

Lemma tEntry_ok : ty_ok tEntry = true.
Proof. reflexivity. Qed.

Lemma bytes_okb bs : bytes_ok bs <-> forallb (fun b => b <? 256) bs = true.
Proof. unfold bytes_ok. rewrite forallb_forall, Forall_forall. split; intros H x Hx; specialize (H x Hx); lia. Qed.

Lemma range_u32 k : k < 2 ^ 32 -> in_range U32 (Z.of_N k) = true.
Proof.
  intros H. unfold in_range. cbn [isigned ibits]. change (2 ^ Z.of_N 32)%Z with 4294967296%Z.
  change (2 ^ 32) with 4294967296 in H. lia.
Qed.
Lemma range_u32_inv z : in_range U32 z = true -> Z.to_N z < 2 ^ 32.
Proof.
  intros H. unfold in_range in H. cbn [isigned ibits] in H. change (2 ^ Z.of_N 32)%Z with 4294967296%Z in H.
  change (2 ^ 32) with 4294967296. lia.
Qed.

Lemma wt_vpath p : Forall (fun n => n < 2 ^ 32) p -> wt (TVec (TInt U32)) (vpath p) = true.
Proof.
  intros H. cbn [wt vpath]. rewrite forallb_forall. intros x Hx. apply in_map_iff in Hx. destruct Hx as (n & <- & Hn).
  rewrite Forall_forall in H. specialize (H n Hn). cbn [ikind_eqb andb wt]. now apply range_u32.
Qed.

Ltac pick_variant := match goal with |- context [find_variant ?vs ?t] =>
  let x := eval vm_compute in (find_variant vs t) in change (find_variant vs t) with x end.

Lemma wt_entry e : entry_ok e -> wt tEntry (entry_val e) = true.
Proof.
  intros (P & K & B). destruct e as [p b|p b|p|p k]; cbn [entry_path entry_key entry_bytes entry_val] in *.
  - unfold tEntry. rewrite wt_enum_eq. pick_variant. cbn -[wt vpath]. rewrite wt_vpath by assumption. cbn. apply bytes_okb in B. now rewrite B.
  - unfold tEntry. rewrite wt_enum_eq. pick_variant. cbn -[wt vpath]. rewrite wt_vpath by assumption. cbn. apply bytes_okb in B. now rewrite B.
  - unfold tEntry. rewrite wt_enum_eq. pick_variant. cbn -[wt vpath]. now rewrite wt_vpath by assumption.
  - unfold tEntry. rewrite wt_enum_eq. pick_variant. cbn -[wt vpath]. rewrite wt_vpath by assumption. specialize (K k eq_refl).
    cbn [wt ikind_eqb]. now rewrite range_u32 by assumption.
Qed.

Lemma safe_u32 k : k < 2 ^ 32 -> int_safe U32 (Z.of_N k) = true.
Proof. exact (range_u32 k). Qed.

Lemma lossless_entry e : entry_ok e -> lossless tEntry (entry_val e) = true.
Proof.
  intros (P & K & _). set (f := fun n => VInt U32 (Z.of_N n)).
  assert (W : forall p, forallb writable (map f p) = true).
  { induction p; [reflexivity|cbn; assumption]. }
  assert (S : forall p, Forall (fun n => n < 2 ^ 32) p -> forallb ints_safe (map f p) = true).
  { induction 1; [reflexivity|]. cbn [map forallb]. unfold f at 1. cbn [ints_safe]. rewrite safe_u32 by assumption. assumption. }
  assert (KI : forall p, forallb (keys_in (TInt U32)) (map f p) = true).
  { induction p; [reflexivity|]. cbn [map forallb]. rewrite IHp. reflexivity. }
  destruct e as [p b|p b|p|p k]; cbn [entry_path entry_key] in *; unfold lossless, entry_val, vpath; fold f;
    cbn [writable forallb ints_safe]; rewrite W, S by assumption;
    try rewrite (safe_u32 k) by (now apply K); cbn -[keys_in]; unfold tEntry; cbn; now rewrite KI.
Qed.

Lemma norm_entry e r : norm r (entry_val e) = entry_val e.
Proof.
  assert (P : forall p r, norm r (vpath p) = vpath p).
  { intros p s. unfold vpath. cbn [norm]. f_equal. rewrite map_map. now apply map_ext. }
  destruct e; cbn -[vpath]; now rewrite ?P.
Qed.

Lemma path_of_vpath p : path_of (vpath p) = p.
Proof.
  cbn. rewrite map_map. rewrite <- (map_id p) at 2. apply map_ext. intros n. lia.
Qed.
Lemma entry_of_entry_val e : entry_of_val (entry_val e) = Some e.
Proof.
  destruct e as [p b|p b|p|p k]; cbn -[path_of vpath]; rewrite path_of_vpath; try reflexivity.
  now rewrite N2Z.id.
Qed.

Lemma entry_wire_delimited e : entry_wire e = delimited (entry_val e) (enc (entry_val e)).
Proof. unfold entry_wire, delimited. destruct e; reflexivity. Qed.

Lemma read_entry_wire m e rest : entry_ok e -> lenN (enc (entry_val e)) < 2 ^ 64 ->
  read_entry m (entry_wire e ++ rest) = Ok (e, rest).
Proof.
  intros O L. unfold read_entry. rewrite entry_wire_delimited.
  rewrite (de_nested_rt m tEntry rt_default (entry_val e)); try assumption.
  - cbn [bind]. now rewrite norm_entry, entry_of_entry_val.
  - now apply roundtrip.
  - now apply wt_entry.
  - now apply lossless_entry.
Qed.

Lemma write_entry_wire m e h : entry_ok e -> lenN (entry_wire e) < 2 ^ 32 ->
  exists h', write_nested m (entry_val e) h = Ok (entry_wire e, h').
Proof.
  intros O L. rewrite entry_wire_delimited in *. apply write_nested_spec; [|exact L].
  apply (wt_ser_ok tEntry); [apply tEntry_ok|now apply wt_entry|].
  pose proof (lossless_entry e O) as H. apply lossless_and in H. tauto.
Qed.

(** A decoded entry is always a [LogEntry]. *)
Lemma entry_of_val_some v : wt tEntry v = true -> exists e, entry_of_val v = Some e /\ entry_ok e.
Proof.
  assert (P : forall x, wt (TVec (TInt U32)) x = true -> Forall (fun n => n < 2 ^ 32) (path_of x)).
  { intros x W. destruct x; try discriminate W. cbn [path_of]. cbn [wt] in W. rewrite forallb_forall in W.
    apply Forall_forall. intros n Hn. apply in_map_iff in Hn. destruct Hn as (y & <- & Hy). specialize (W y Hy).
    destruct y; try discriminate W. cbn [wt] in W. apply andb_prop in W. destruct W as [Wk W].
    destruct k; try discriminate Wk. now apply range_u32_inv. }
  intros W. destruct v; try discriminate W. unfold tEntry in W. rewrite wt_enum_eq in W. cbn -[wt] in W.
  apply andb_prop in W. destruct W as [_ W].
  destruct (0 =? tag) eqn:E0; [|destruct (8 =? tag) eqn:E8; [|destruct (9 =? tag) eqn:E9; [|destruct (12 =? tag) eqn:E12; [|discriminate W]]]].
  - apply N.eqb_eq in E0. subst tag. bprop.
    destruct fs as [|[? x] [|[? y] [|]]]; cbn -[wt] in *; try discriminate; bprop; try discriminate.
    destruct y; try discriminate. eexists. split; [reflexivity|]. cbn in *. split; [now apply P|]. split; [easy|]. now apply bytes_okb.
  - apply N.eqb_eq in E8. subst tag. bprop.
    destruct fs as [|[? x] [|[? y] [|]]]; cbn -[wt] in *; try discriminate; bprop; try discriminate.
    destruct y; try discriminate. eexists. split; [reflexivity|]. cbn in *. split; [now apply P|]. split; [easy|]. now apply bytes_okb.
  - apply N.eqb_eq in E9. subst tag. bprop.
    destruct fs as [|[? x] [|[? y] ?]]; cbn -[wt] in *; try discriminate; bprop; try discriminate.
    eexists. split; [reflexivity|]. cbn in *. split; [now apply P|]. split; [easy|constructor].
  - apply N.eqb_eq in E12. subst tag. bprop.
    destruct fs as [|[? x] [|[? y] [|]]]; cbn -[wt] in *; try discriminate; bprop; try discriminate.
    destruct y; try discriminate. eexists. split; [reflexivity|]. cbn [entry_path entry_key entry_bytes].
    split; [now apply P|]. split; [|constructor]. intros k0 [= <-]. cbn [wt] in *. bprop. destruct k; try discriminate. now apply range_u32_inv.
Qed.
