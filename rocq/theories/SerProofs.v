(** Serialization: announced sizes, caches, bytes written. *)
From Verif Require Import Base Varint WireFmt Utf8 Types Ser Spec ValInd VarintProofs WireProofs.

(** * Loops of the serializer over slots *)

Fixpoint comp_slots (m : mode) (a : addr) (i : nat) (acc : N) (sl : list slot) (h : store)
  : res (N * store) :=
  match sl with
  | [] => Ok (acc, h)
  | ((fn, om), x) :: sl' =>
      do (n, h) <- unwrap (size_nested m fn om (i :: a) x (compute m (i :: a) x h));
      do acc <- add32 m acc n;
      comp_slots m a (S i) acc sl' h
  end.

Fixpoint ser_slots (m : mode) (a : addr) (i : nat) (sl : list slot) (h : store)
  : res (bytes * store) :=
  match sl with
  | [] => Ok ([], h)
  | ((fn, om), x) :: sl' =>
      do (b, h) <- ser_nested m fn om (i :: a) x (ser_cached m (i :: a) x) h;
      do (bs, h) <- ser_slots m a (S i) sl' h;
      Ok (b ++ bs, h)
  end.

Lemma bind_ext {A B} (x : res A) (f g : A -> res B) : (forall a, f a = g a) -> bind x f = bind x g.
Proof. intros H. destruct x; cbn; auto. Qed.

Lemma bind_assoc {A B C} (x : res A) (f : A -> res B) (g : B -> res C) :
  bind (bind x f) g = bind x (fun a => bind (f a) g).
Proof. now destruct x. Qed.

Lemma bind_ok {A} (x : res A) : bind x (fun a => Ok a) = x.
Proof. now destruct x. Qed.

Definition hdr_size (m : mode) (v : val) : res N :=
  match v with VEnum tag _ _ _ => add32 m 0 (uv_size 32 tag) | _ => Ok 0 end.

Ltac loop_ind :=
  let l' := fresh "l" in let IH := fresh "IH" in
  intros l'; induction l' as [|x l' IH]; intros i acc h'; [reflexivity|];
  try destruct x as [y1 y2];
  cbn [map comp_slots islot fslot mslot flat_map hslots app fst snd]; cbn [islot comp_slots fst snd];
  apply bind_ext; intros [n h'']; apply bind_ext; intros acc'; try apply IH;
  try (apply bind_ext; intros [n' h3]; apply bind_ext; intros acc''; apply IH).

Lemma compute_slots m a v h : composite v = true -> (forall x, v <> VOpt (Some x)) ->
  compute m a v h = do acc <- hdr_size m v; comp_slots m a O acc (slots v) h.
Proof.
  destruct v as [| | | |[x|]|l|l|l|l| |c r fs|tag c r fs|r l|r es]; intros H NS; try discriminate H;
    try (exfalso; now eapply NS); cbn [compute slots hdr_size]; cbn [bind]; try reflexivity.
  all: match goal with
       | |- ?F O 0 ?l ?h = comp_slots ?m ?a O 0 (?g ?l) ?h =>
           assert (G : forall l i acc h, F i acc l h = comp_slots m a i acc (g l) h); [|apply G]
       | |- bind ?x (fun acc => ?F O acc ?l ?h) = bind ?x (fun acc1 => comp_slots ?m ?a O acc1 (?g ?l) ?h) =>
           assert (G : forall l i acc h, F i acc l h = comp_slots m a i acc (g l) h);
           [|apply bind_ext; intros; apply G]
       end.
  all: loop_ind.
Qed.

Ltac loop_ind' :=
  let l' := fresh "l" in let IH := fresh "IH" in
  intros l'; induction l' as [|x l' IH]; intros i h'; [reflexivity|];
  try destruct x as [y1 y2];
  cbn [map ser_slots islot fslot mslot flat_map hslots app fst snd]; cbn [islot ser_slots fst snd];
  apply bind_ext; intros [n h'']; try now rewrite IH.

Lemma ser_slots_eq m a v h : composite v = true -> (forall x, v <> VOpt (Some x)) ->
  ser_cached m a v h =
  match v with
  | VEnum tag _ _ _ => do t <- uv_serialize 32 tag;
                       do (bs, h) <- ser_slots m a O (slots v) h;
                       Ok (t ++ bs, h)
  | _ => ser_slots m a O (slots v) h
  end.
Proof.
  destruct v as [| | | |[x|]|l|l|l|l| |c r fs|tag c r fs|r l|r es]; intros H NS; try discriminate H;
    try (exfalso; now eapply NS); cbn [ser_cached slots]; try reflexivity.
  all: match goal with
       | |- ?F O ?l ?h = ser_slots ?m ?a O (?g ?l) ?h =>
           assert (G : forall l i h, F i l h = ser_slots m a i (g l) h); [|apply G]
       | |- bind ?x (fun t => bind (?F O ?l ?h) _) = bind ?x (fun t1 => bind (ser_slots ?m ?a O (?g ?l) ?h) _) =>
           assert (G : forall l i h, F i l h = ser_slots m a i (g l) h);
           [|apply bind_ext; intros; now rewrite G]
       end.
  all: loop_ind'.
  rewrite bind_assoc. apply bind_ext. intros [b2 h4]. rewrite IH.
  rewrite bind_assoc. apply bind_ext. now intros [b3 h5].
Qed.

(** * Positions and caches *)

Inductive at_addr (a : addr) : val -> addr -> val -> Prop :=
| at_here v : at_addr a v a v
| at_box v b y : at_addr a v b y -> at_addr a (VBox v) b y
| at_slot v i s b y : nth_error (slots v) i = Some s ->
    at_addr (i :: a) (snd s) b y -> at_addr a v b y.

Lemma addr_eqb_eq a b : addr_eqb a b = true <-> a = b.
Proof.
  revert b. induction a as [|x a IH]; intros [|y b]; cbn; try (split; congruence).
  rewrite andb_true_iff, IH, Nat.eqb_eq. split; [intros [-> ->]; reflexivity|intros E; inversion E; auto].
Qed.

Lemma upd_same h a n : upd h a n a = n.
Proof. unfold upd. now rewrite (proj2 (addr_eqb_eq a a) eq_refl). Qed.

Lemma upd_other h a n b : b <> a -> upd h a n b = h b.
Proof.
  intros H. unfold upd. destruct (addr_eqb b a) eqn:E; [|reflexivity].
  apply addr_eqb_eq in E. contradiction.
Qed.

(** Slots of a value below its boxes. *)
Fixpoint unbox (v : val) : val := match v with VBox x => unbox x | _ => v end.

Lemma at_prefix a v b y : at_addr a v b y -> exists p, b = p ++ a.
Proof.
  induction 1 as [a v|a v b y H IH|a v i s b y E H IH].
  - now exists [].
  - exact IH.
  - destruct IH as [p ->]. exists (p ++ [i]). now rewrite <- app_assoc.
Qed.

Lemma app_addr_inj (p q : addr) i j a : p ++ i :: a = q ++ j :: a -> i = j.
Proof.
  intros H. apply (f_equal (@rev nat)) in H. rewrite !rev_app_distr in H. cbn in H.
  rewrite <- !app_assoc in H. apply app_inv_head in H. now inversion H.
Qed.

Lemma app_addr_neq (p : addr) i a : p ++ i :: a <> a.
Proof. intros H. apply (f_equal (@length nat)) in H. rewrite app_length in H. cbn in H. lia. Qed.

(** The cache of every node at or below [a] holds that node's encoded size. *)
Definition all_ok (a : addr) (v : val) (h : store) : Prop :=
  forall b y, at_addr a v b y -> has_cache y = true -> h b = lenN (enc y).

(** The same for the nodes strictly below. *)
Definition kids_at (a : addr) (v : val) (b : addr) (y : val) : Prop :=
  exists i s, nth_error (slots (unbox v)) i = Some s /\ at_addr (i :: a) (snd s) b y.
Definition kids_ok (a : addr) (v : val) (h : store) : Prop :=
  forall b y, kids_at a v b y -> has_cache y = true -> h b = lenN (enc y).

Lemma unbox_enc v : enc (unbox v) = enc v.
Proof. induction v; cbn; auto. Qed.
Lemma unbox_cache v : has_cache (unbox v) = has_cache v.
Proof. induction v; cbn; auto. Qed.
Lemma unbox_vwty v : vwty (unbox v) = vwty v.
Proof. induction v; cbn; auto. Qed.

Lemma kids_at_at a v b y : kids_at a v b y -> at_addr a v b y.
Proof.
  induction v; intros [i [sl [E H]]]; cbn in E;
    try (eapply at_slot; [exact E|exact H]).
  apply at_box. apply IHv. now exists i, sl.
Qed.

Lemma at_cases a v b y : at_addr a v b y ->
  (b = a /\ has_cache y = has_cache v /\ enc y = enc v) \/ kids_at a v b y.
Proof.
  induction 1 as [a v|a v b y H IH|a v i s b y E H IH].
  - now left.
  - destruct IH as [[-> [E1 E2]]|IH]; [now left|]. right. destruct IH as [i [s [E H']]]. now exists i, s.
  - right. exists i, s. split; [|exact H]. destruct v; try exact E; cbn in E; destruct i; discriminate E.
Qed.

Lemma all_ok_intro a v h : kids_ok a v h -> (has_cache v = true -> h a = lenN (enc v)) -> all_ok a v h.
Proof.
  intros K O b y A C. destruct (at_cases a v b y A) as [[-> [E1 E2]]|A'].
  - rewrite E2. apply O. congruence.
  - now apply K.
Qed.

Lemma all_ok_kids a v h : all_ok a v h -> kids_ok a v h.
Proof. intros A b y K. apply A. now apply kids_at_at. Qed.

Lemma all_ok_own a v h : all_ok a v h -> has_cache v = true -> h a = lenN (enc v).
Proof. intros A. apply A. constructor. Qed.

Lemma kids_at_below a v b y : kids_at a v b y -> exists p i, b = p ++ i :: a.
Proof. intros [i [s [_ H]]]. apply at_prefix in H. destruct H as [p ->]. eauto. Qed.

(** What the serializer needs of a value, whatever its type. *)
Definition fn_ok (s : slot) : Prop := match fst (fst s) with Some fn => fn <= FIELD_NUMBER_MAX | None => True end.

Inductive ser_ok : val -> Prop :=
| so_int k z : in_range k z = true -> ser_ok (VInt k z)
| so_bool b : ser_ok (VBool b)
| so_str s : ser_ok (VStr s)
| so_bytes s : ser_ok (VBytes s)
| so_box v : ser_ok v -> ser_ok (VBox v)
| so_comp v : composite v = true ->
    (match v with VEnum tag _ _ _ => tag < 2 ^ 32 | _ => True end) ->
    (forall s, In s (slots v) -> fn_ok s /\ ser_ok (snd s)) -> ser_ok v.

(** * Computing sizes *)

Lemma add32_ok m a b : a + b < 2 ^ 32 -> add32 m a b = Ok (a + b).
Proof. intros H. unfold add32. assert (E : a + b <? 2 ^ 32 = true) by lia. now rewrite E. Qed.

Lemma lenN_app {A} (x y : list A) : lenN (x ++ y) = lenN x + lenN y.
Proof. unfold lenN. rewrite app_length. lia. Qed.

Lemma omissible_left_out v : omissible v (lenN (enc v)) = left_out v (enc v).
Proof.
  destruct v; try reflexivity; cbn [omissible left_out];
    match goal with |- (lenN ?e =? 0) = _ => destruct e; reflexivity end.
Qed.

Definition frame (at_ : addr -> val -> Prop) (h h' : store) : Prop :=
  forall b, (forall y, at_ b y -> has_cache y = true -> False) -> h' b = h b.

Definition csize_spec a v h (r : res (N * store)) : Prop :=
  exists h', r = Ok (lenN (enc v), h') /\ kids_ok a v h' /\ frame (kids_at a v) h h' /\
    (kids_ok a v h -> forall b, h' b = h b).

Lemma size_nested_spec m fn om a v h r :
  csize_spec a v h r ->
  (match fn with Some f => f <= FIELD_NUMBER_MAX | None => True end) ->
  lenN (slot_enc ((fn, om), v)) < 2 ^ 32 ->
  exists h', size_nested m fn om a v r = Ok (lenN (slot_enc ((fn, om), v)), h') /\
    all_ok a v h' /\ frame (at_addr a v) h h' /\ (all_ok a v h -> forall b, h' b = h b).
Proof.
  intros [h1 [-> [K1 [F1 S1]]]] Hfn Hlen.
  set (h2 := if has_cache v then upd h1 a (lenN (enc v)) else h1).
  assert (A2 : all_ok a v h2).
  { apply all_ok_intro.
    - intros b y K C. unfold h2. destruct (has_cache v).
      + rewrite upd_other; [now apply K1|]. destruct (kids_at_below _ _ _ _ K) as [p [i ->]]. apply app_addr_neq.
      + now apply K1.
    - intros C. unfold h2. rewrite C. apply upd_same. }
  assert (F2 : frame (at_addr a v) h h2).
  { intros b N. assert (E1 : h1 b = h b).
    { apply F1. intros y K. apply N. now apply kids_at_at. }
    unfold h2. destruct (has_cache v) eqn:C; [|exact E1].
    rewrite upd_other; [exact E1|]. intros ->. apply (N v); [constructor|exact C]. }
  assert (S2 : all_ok a v h -> forall b, h2 b = h b).
  { intros A b. unfold h2. destruct (has_cache v) eqn:C; [|now apply S1, all_ok_kids].
    destruct (addr_eqb b a) eqn:E.
    - apply addr_eqb_eq in E. subst b. rewrite upd_same. symmetry. now apply all_ok_own.
    - rewrite upd_other; [now apply S1, all_ok_kids|]. intros ->.
      rewrite (proj2 (addr_eqb_eq a a) eq_refl) in E. discriminate. }
  exists h2. split; [|auto]. clear A2 F2 S2.
  unfold size_nested. cbn [bind]. fold h2.
  rewrite omissible_left_out. unfold slot_enc in *.
  destruct (is_some fn && om && left_out v (enc v)); [reflexivity|].
  assert (Hd : lenN (delimited v (enc v)) < 2 ^ 32).
  { destruct fn; [|exact Hlen]. unfold enc_tagged in Hlen. rewrite lenN_app in Hlen. lia. }
  assert (E : match vwty v with
              | Varint => Ok (lenN (enc v))
              | Sized => add32 m (lenN (enc v)) (uv_size 32 (lenN (enc v)))
              end = Ok (lenN (delimited v (enc v)))).
  { unfold delimited in *. destruct (vwty v); [reflexivity|]. rewrite lenN_app in *.
    rewrite uv_size_32 by lia. rewrite add32_ok by lia. f_equal. lia. }
  rewrite E. cbn [bind].
  destruct fn as [fn|]; [|reflexivity].
  rewrite mk_tag_spec by exact Hfn. cbn [bind].
  unfold enc_tagged in *. rewrite lenN_app in *.
  rewrite uv_size_32 by now apply tag_num_bound.
  rewrite add32_ok by lia. cbn [bind]. do 2 f_equal. lia.
Qed.

Lemma all_ok_agree a v h h' : all_ok a v h ->
  (forall b y, at_addr a v b y -> has_cache y = true -> h' b = h b) -> all_ok a v h'.
Proof. intros A E b y H C. rewrite (E b y H C). now apply A. Qed.

Lemma frame_other a v i j s h h' :
  frame (at_addr (i :: a) v) h h' -> i <> j -> all_ok (j :: a) s h -> all_ok (j :: a) s h'.
Proof.
  intros F N A. apply (all_ok_agree _ _ _ _ A). intros b y H C. apply F. intros y' H' _.
  apply at_prefix in H. apply at_prefix in H'. destruct H as [p ->]. destruct H' as [q E].
  apply app_addr_inj in E. congruence.
Qed.

Lemma comp_slots_spec m a : forall sl i acc h,
  (forall s, In s sl -> fn_ok s /\ forall b h, lenN (enc (snd s)) < 2 ^ 32 -> csize_spec b (snd s) h (compute m b (snd s) h)) ->
  acc + lenN (flat_map slot_enc sl) < 2 ^ 32 ->
  exists h', comp_slots m a i acc sl h = Ok (acc + lenN (flat_map slot_enc sl), h') /\
    (forall j s, nth_error sl j = Some s -> all_ok ((i + j)%nat :: a) (snd s) h') /\
    frame (fun b y => exists j s, nth_error sl j = Some s /\ at_addr ((i + j)%nat :: a) (snd s) b y) h h' /\
    ((forall j s, nth_error sl j = Some s -> all_ok ((i + j)%nat :: a) (snd s) h) -> forall b, h' b = h b).
Proof.
  induction sl as [|[[fn om] x] sl IH]; intros i acc h Hs Hlen.
  - exists h. cbn. split; [do 2 f_equal; lia|]. split; [intros [|j] s E; discriminate E|].
    split; [intros b _; reflexivity|reflexivity].
  - cbn [flat_map] in *. rewrite lenN_app in *.
    destruct (Hs ((fn, om), x) (or_introl eq_refl)) as [Hfn Hx]. cbn [fn_ok fst snd] in Hfn, Hx.
    destruct (size_nested_spec m fn om (i :: a) x h (compute m (i :: a) x h)) as [h1 [E1 [A1 [F1 S1]]]].
    { apply Hx. destruct (left_out x (enc x)) eqn:L.
      - destruct x as [k z|b| | | | | | | | | | | | ]; cbn [left_out] in L.
        1: { pose proof (leb128_len_le (wire_num k z) 9) as P. 
             assert (z = 0%Z) by lia. subst z. cbn [enc]. destruct k; reflexivity. }
        1: reflexivity.
        all: match goal with |- lenN ?e < _ => destruct e; [reflexivity|discriminate L] end.
      - assert (lenN (enc x) <= lenN (slot_enc ((fn, om), x))); [|lia].
        cbn [slot_enc]. rewrite L, andb_false_r. unfold enc_tagged, delimited.
        destruct fn; destruct (vwty x); rewrite ?lenN_app; lia. }
    { exact Hfn. }
    { lia. }
    destruct (IH (S i) (acc + lenN (slot_enc ((fn, om), x))) h1) as [h2 [E2 [A2 [F2 S2]]]].
    { intros s Hi. apply Hs. now right. }
    { lia. }
    exists h2. split.
    { cbn [comp_slots]. rewrite E1. cbn [unwrap bind]. rewrite add32_ok by lia. cbn [bind]. rewrite E2.
      do 2 f_equal. lia. }
    assert (Adjust : forall j, (S i + j = i + S j)%nat) by lia.
    split; [|split].
    + intros [|j] s E.
      * cbn in E. inversion E; subst s. cbn [snd]. rewrite Nat.add_0_r.
        apply (all_ok_agree _ _ _ _ A1). intros b y H C. apply F2. intros y' [j' [s' [_ H']]] _.
        apply at_prefix in H. apply at_prefix in H'. destruct H as [p ->]. destruct H' as [q Eq].
        apply app_addr_inj in Eq. lia.
      * rewrite <- Adjust. apply A2. exact E.
    + intros b N. rewrite F2.
      * apply F1. intros y H C. apply (N y); [|exact C]. exists O, ((fn, om), x).
        split; [reflexivity|]. now rewrite Nat.add_0_r.
      * intros y [j [s [E H]]] C. apply (N y); [|exact C]. exists (S j), s. split; [exact E|].
        now rewrite <- Adjust.
    + intros A b. rewrite S2.
      * apply S1. specialize (A O _ eq_refl). now rewrite Nat.add_0_r in A.
      * intros j s E b' y H C. rewrite S1; [|specialize (A O _ eq_refl); now rewrite Nat.add_0_r in A].
        rewrite Adjust in H. now apply (A (S j) s E b' y).
Qed.

Lemma csize_intro a v h n h' : 
  composite v = true -> n = lenN (enc v) ->
  (forall j s, nth_error (slots v) j = Some s -> all_ok (j :: a) (snd s) h') ->
  frame (fun b y => exists j s, nth_error (slots v) j = Some s /\ at_addr (j :: a) (snd s) b y) h h' ->
  ((forall j s, nth_error (slots v) j = Some s -> all_ok (j :: a) (snd s) h) -> forall b, h' b = h b) ->
  csize_spec a v h (Ok (n, h')).
Proof.
  intros C -> A F S. assert (U : unbox v = v) by (destruct v; try reflexivity; discriminate C).
  exists h'. split; [reflexivity|]. unfold kids_ok, kids_at. rewrite U. split; [|split].
  - intros b y [i [s [E H]]] Cy. now apply (A i s E).
  - exact F.
  - intros K. apply S. intros j s E b y H Cy. apply K; [|exact Cy]. now exists j, s.
Qed.

Lemma compute_spec v : ser_ok v -> lenN (enc v) < 2 ^ 32 ->
  forall m a h, csize_spec a v h (compute m a v h).
Proof.
  induction v as [v L|v IH|v C IH] using val_slots_ind; intros Ok0 Hlen m a h.
  - assert (NK : forall b y, ~ kids_at a v b y).
    { intros b y [i [s [E _]]]. destruct v; try discriminate L; cbn in E; destruct i; discriminate E. }
    assert (G : compute m a v h = Ok (lenN (enc v), h)).
    { inversion Ok0 as [k z R|b|s|s|w O'|w C' _ _]; subst; try discriminate L; cbn [compute enc].
      - now rewrite int_size_spec.
      - reflexivity.
      - do 2 f_equal. cbn [enc] in Hlen. lia.
      - do 2 f_equal. cbn [enc] in Hlen. lia.
      - destruct v; discriminate. }
    rewrite G. exists h. split; [reflexivity|]. split; [intros b y K; exfalso; now apply (NK b y)|].
    split; [intros b _; reflexivity|reflexivity].
  - inversion Ok0 as [| | | |w O'|w C' _ _]; subst; [|discriminate C']. 
    destruct (IH O' Hlen m a h) as [h' [E [K [F S]]]]. exists h'. cbn [compute enc].
    split; [exact E|]. split; [exact K|]. split; [exact F|exact S].
  - inversion Ok0 as [| | | | |w C' T Hs]; subst; try discriminate C.
    assert (Hsl : forall s, In s (slots v) -> fn_ok s /\
       forall b h, lenN (enc (snd s)) < 2 ^ 32 -> csize_spec b (snd s) h (compute m b (snd s) h)).
    { intros s Hi. destruct (Hs s Hi) as [Hf Ho]. split; [exact Hf|]. intros b h0 Hl.
      rewrite Forall_forall in IH. now apply IH. }
    rewrite enc_slots in Hlen by exact C. rewrite lenN_app in Hlen.
    assert (D : (exists x, v = VOpt (Some x)) \/ forall x, v <> VOpt (Some x)).
    { destruct v as [| | | |[x|]| | | | | | | | |]; try (right; congruence). left; eauto. }
    destruct D as [[x ->]|NS].
    + cbn [compute slots flat_map hdr app] in *. rewrite app_nil_r in Hlen.
      destruct (Hsl (islot x) (or_introl eq_refl)) as [_ Hx]. cbn [islot snd] in Hx.
      destruct (size_nested_spec m None false (O :: a) x h (compute m (O :: a) x h)) as [h1 [E1 [A1 [F1 S1]]]].
      { apply Hx. change (slot_enc (islot x)) with (delimited x (enc x)) in Hlen. unfold delimited in Hlen.
        destruct (vwty x); rewrite ?lenN_app in Hlen; lia. }
      { exact I. } { exact Hlen. }
      rewrite E1. cbn [unwrap]. apply csize_intro; [reflexivity| | | |].
      * reflexivity.
      * intros [|j] s E; [inversion E; subst; exact A1|destruct j; discriminate E].
      * intros b N. apply F1. intros y H Cy. apply (N y); [|exact Cy]. now exists O, (islot x).
      * intros A. apply S1. apply (A O (islot x) eq_refl).
    + rewrite compute_slots by assumption.
      assert (Hh : hdr_size m v = Ok (lenN (hdr v))).
      { destruct v; try reflexivity. cbn [hdr_size hdr]. cbn [hdr] in Hlen.
        rewrite uv_size_32 by exact T. apply add32_ok. lia. }
      rewrite Hh. cbn [bind].
      destruct (comp_slots_spec m a (slots v) O (lenN (hdr v)) h Hsl Hlen) as [h' [E [A [F S]]]].
      rewrite E. apply csize_intro; auto.
      rewrite (enc_slots v C). now rewrite lenN_app.
Qed.

Lemma cache_size_spec v : ser_ok v -> lenN (enc v) < 2 ^ 32 -> forall m a h,
  exists h', cache_size m a v h = Ok (lenN (enc v), h') /\ all_ok a v h' /\
    frame (at_addr a v) h h'.
Proof.
  intros Ok0 Hlen m a h.
  destruct (compute_spec v Ok0 Hlen m a h) as [h1 [E [K [F _]]]].
  exists (if has_cache v then upd h1 a (lenN (enc v)) else h1).
  split; [unfold cache_size; rewrite E; reflexivity|]. split.
  - apply all_ok_intro.
    + intros b y Kb C. destruct (has_cache v).
      * rewrite upd_other; [now apply K|]. destruct (kids_at_below _ _ _ _ Kb) as [p [i ->]]. apply app_addr_neq.
      * now apply K.
    + intros C. rewrite C. apply upd_same.
  - intros b N. assert (E1 : h1 b = h b).
    { apply F. intros y Kb. apply N. now apply kids_at_at. }
    destruct (has_cache v) eqn:C; [|exact E1].
    rewrite upd_other; [exact E1|]. intros ->. apply (N v); [constructor|exact C].
Qed.

(** * Writing *)

Lemma cached_size_spec m a v h : ser_ok v -> lenN (enc v) < 2 ^ 32 -> all_ok a v h ->
  exists h', cached_size m a v h = Ok (lenN (enc v), h') /\ forall b, h' b = h b.
Proof.
  intros Ok0 Hlen A. unfold cached_size. destruct (has_cache v) eqn:C.
  - exists h. split; [|reflexivity]. do 2 f_equal. now apply all_ok_own.
  - destruct (compute_spec v Ok0 Hlen m a h) as [h1 [E [_ [_ S]]]]. exists h1. split; [exact E|].
    apply S. now apply all_ok_kids.
Qed.

Lemma all_ok_ext a v h h' : all_ok a v h -> (forall b, h' b = h b) -> all_ok a v h'.
Proof. intros A E b y H C. rewrite E. now apply A. Qed.

Lemma lenN_slot fn om x : lenN (slot_enc ((fn, om), x)) < 2 ^ 32 -> lenN (enc x) < 2 ^ 32.
Proof.
  intros H. destruct (left_out x (enc x)) eqn:L.
  - destruct x as [k z|b| | | | | | | | | | | | ]; cbn [left_out] in L.
    1: { assert (z = 0%Z) by lia. subst z. cbn [enc]. destruct k; reflexivity. }
    1: reflexivity.
    all: match goal with |- lenN ?e < _ => destruct e; [reflexivity|discriminate L] end.
  - assert (lenN (enc x) <= lenN (slot_enc ((fn, om), x))); [|lia].
    cbn [slot_enc]. rewrite L, andb_false_r. unfold enc_tagged, delimited.
    destruct fn; destruct (vwty x); rewrite ?lenN_app; lia.
Qed.

Lemma ser_nested_spec m fn om a v ser h :
  ser_ok v -> lenN (slot_enc ((fn, om), v)) < 2 ^ 32 ->
  (match fn with Some f => f <= FIELD_NUMBER_MAX | None => True end) ->
  all_ok a v h ->
  (forall h, all_ok a v h -> exists h', ser h = Ok (enc v, h') /\ forall b, h' b = h b) ->
  exists h', ser_nested m fn om a v ser h = Ok (slot_enc ((fn, om), v), h') /\ forall b, h' b = h b.
Proof.
  intros Ok0 Hlen Hfn A Hser. pose proof (lenN_slot fn om v Hlen) as Hl.
  unfold ser_nested.
  assert (E0 : exists h1, (if is_some fn && om then omissible_cached m a v h else Ok (false, h))
               = Ok (is_some fn && om && left_out v (enc v), h1) /\ forall b, h1 b = h b).
  { destruct (is_some fn && om); [|exists h; split; reflexivity]. cbn [andb].
    destruct (cached_size_spec m a v h Ok0 Hl A) as [h1 [E1 S1]].
    unfold omissible_cached. destruct v; try (exists h; split; reflexivity);
      rewrite E1; exists h1; (split; [cbn [bind left_out]|exact S1]);
      match goal with |- context [lenN ?e] => destruct e; reflexivity end. }
  destruct E0 as [h1 [E1 S1]]. rewrite E1. cbn [bind]. cbn [slot_enc].
  destruct (is_some fn && om && left_out v (enc v)); [exists h1; split; [reflexivity|exact S1]|].
  assert (Et : match fn with
               | Some fn => do t <- mk_tag fn (vwty v); uv_serialize 32 t
               | None => Ok [] end
               = Ok (match fn with Some fn => leb128 (tag_num fn (vwty v)) | None => [] end)).
  { destruct fn as [fn|]; [|reflexivity]. rewrite mk_tag_spec by exact Hfn. cbn [bind].
    apply uv_serialize_spec; [lia|now apply tag_num_bound]. }
  rewrite Et. cbn [bind].
  assert (A1 : all_ok a v h1) by now apply (all_ok_ext a v h).
  assert (Es : exists h2, match vwty v with
               | Varint => Ok ([], h1)
               | Sized => do (n, h) <- cached_size m a v h1; do b <- uv_serialize 32 n; Ok (b, h)
               end = Ok (match vwty v with Varint => [] | Sized => leb128 (lenN (enc v)) end, h2)
               /\ forall b, h2 b = h1 b).
  { destruct (vwty v); [exists h1; split; reflexivity|].
    destruct (cached_size_spec m a v h1 Ok0 Hl A1) as [h2 [E2 S2]]. exists h2. split; [|exact S2].
    rewrite E2. cbn [bind]. rewrite uv_serialize_spec by lia. reflexivity. }
  destruct Es as [h2 [E2 S2]]. rewrite E2. cbn [bind].
  destruct (Hser h2) as [h3 [E3 S3]]; [now apply (all_ok_ext a v h1)|].
  rewrite E3. cbn [bind]. exists h3. split.
  - unfold enc_tagged, delimited. destruct fn; destruct (vwty v); reflexivity.
  - intros b. now rewrite S3, S2, S1.
Qed.

Lemma ser_slots_spec m a : forall sl i h,
  (forall s, In s sl -> fn_ok s /\ ser_ok (snd s) /\
     forall b h, lenN (enc (snd s)) < 2 ^ 32 -> kids_ok b (snd s) h ->
       exists h', ser_cached m b (snd s) h = Ok (enc (snd s), h') /\ forall c, h' c = h c) ->
  lenN (flat_map slot_enc sl) < 2 ^ 32 ->
  (forall j s, nth_error sl j = Some s -> all_ok ((i + j)%nat :: a) (snd s) h) ->
  exists h', ser_slots m a i sl h = Ok (flat_map slot_enc sl, h') /\ forall b, h' b = h b.
Proof.
  induction sl as [|[[fn om] x] sl IH]; intros i h Hs Hlen A.
  - exists h. split; reflexivity.
  - cbn [flat_map] in *. rewrite lenN_app in Hlen.
    destruct (Hs ((fn, om), x) (or_introl eq_refl)) as [Hfn [Ho Hx]]. cbn [fn_ok fst snd] in Hfn, Ho, Hx.
    destruct (ser_nested_spec m fn om (i :: a) x (ser_cached m (i :: a) x) h) as [h1 [E1 S1]].
    { exact Ho. } { lia. } { exact Hfn. }
    { specialize (A O _ eq_refl). now rewrite Nat.add_0_r in A. }
    { intros h0 A0. apply Hx; [apply (lenN_slot fn om x); lia|now apply all_ok_kids]. }
    destruct (IH (S i) h1) as [h2 [E2 S2]].
    { intros s Hi. apply Hs. now right. }
    { lia. }
    { intros j s E. apply (all_ok_ext _ _ h); [|exact S1].
      replace (S i + j)%nat with (i + S j)%nat by lia. now apply A. }
    exists h2. split.
    + cbn [ser_slots]. rewrite E1. cbn [bind]. rewrite E2. reflexivity.
    + intros b. now rewrite S2, S1.
Qed.

Lemma ser_cached_spec v : ser_ok v -> lenN (enc v) < 2 ^ 32 -> forall m a h, kids_ok a v h ->
  exists h', ser_cached m a v h = Ok (enc v, h') /\ forall b, h' b = h b.
Proof.
  induction v as [v L|v IH|v C IH] using val_slots_ind; intros Ok0 Hlen m a h K.
  - exists h. split; [|reflexivity].
    inversion Ok0 as [k z R|b|s|s|w O'|w C' _ _]; subst; try discriminate L; cbn [ser_cached enc];
      try reflexivity.
    + rewrite int_serialize_spec by exact R. reflexivity.
    + destruct v; discriminate.
  - inversion Ok0 as [| | | |w O'|w C' _ _]; subst; [|discriminate C'].
    cbn [ser_cached enc]. now apply IH.
  - inversion Ok0 as [| | | | |w C' T Hs]; subst; try discriminate C.
    assert (U : unbox v = v) by (destruct v; try reflexivity; discriminate C).
    assert (Hsl : forall s, In s (slots v) -> fn_ok s /\ ser_ok (snd s) /\
       forall b h, lenN (enc (snd s)) < 2 ^ 32 -> kids_ok b (snd s) h ->
         exists h', ser_cached m b (snd s) h = Ok (enc (snd s), h') /\ forall c, h' c = h c).
    { intros s Hi. destruct (Hs s Hi) as [Hf Ho]. split; [exact Hf|]. split; [exact Ho|]. intros b h0 Hl Kb.
      rewrite Forall_forall in IH. now apply IH. }
    rewrite enc_slots in Hlen by exact C. rewrite lenN_app in Hlen.
    assert (A : forall j s, nth_error (slots v) j = Some s -> all_ok (j :: a) (snd s) h).
    { intros j s E b y H Cy. apply K; [|exact Cy]. exists j, s. now rewrite U. }
    assert (D : (exists x, v = VOpt (Some x)) \/ forall x, v <> VOpt (Some x)).
    { destruct v as [| | | |[x|]| | | | | | | | |]; try (right; congruence). left; eauto. }
    destruct D as [[x ->]|NS].
    + destruct (Hsl (islot x) (or_introl eq_refl)) as [_ [Ho Hx]]. cbn [islot snd] in Hx, Ho.
      cbn [ser_cached]. cbn [slots flat_map hdr app] in Hlen. rewrite app_nil_r in Hlen.
      apply (ser_nested_spec m None false (O :: a) x (ser_cached m (O :: a) x) h Ho Hlen I).
      * exact (A O (islot x) eq_refl).
      * intros h0 A0. apply Hx; [apply (lenN_slot None false x); exact Hlen|now apply all_ok_kids].
    + rewrite ser_slots_eq by assumption.
      destruct (ser_slots_spec m a (slots v) O h Hsl) as [h' [E S]]; [lia|exact A|].
      exists h'. split; [|exact S]. rewrite (enc_slots v C).
      destruct v; try (rewrite E; reflexivity).
      rewrite uv_serialize_spec by (lia || exact T). rewrite E. reflexivity.
Qed.

Lemma steit_serialize_spec v : ser_ok v -> lenN (enc v) < 2 ^ 32 -> forall m h,
  exists h', steit_serialize m v h = Ok (enc v, h') /\ all_ok [] v h' /\ frame (at_addr [] v) h h'.
Proof.
  intros Ok0 Hlen m h.
  destruct (cache_size_spec v Ok0 Hlen m [] h) as [h1 [E1 [A1 F1]]].
  destruct (ser_cached_spec v Ok0 Hlen m [] h1 (all_ok_kids _ _ _ A1)) as [h2 [E2 S2]].
  exists h2. unfold steit_serialize. rewrite E1. cbn [bind]. split; [exact E2|].
  split; [now apply (all_ok_ext _ _ h1)|]. intros b N. rewrite S2. now apply F1.
Qed.

Lemma to_bytes_spec v : ser_ok v -> lenN (enc v) < 2 ^ 32 -> forall m h, to_bytes m v h = Ok (enc v).
Proof.
  intros Ok0 Hlen m h. destruct (steit_serialize_spec v Ok0 Hlen m h) as [h' [E _]].
  unfold to_bytes. now rewrite E.
Qed.

(** * Values that cannot be written *)

Lemma add32_cases m a b : (exists n, add32 m a b = Ok n) \/ (m = Debug /\ add32 m a b = Panic).
Proof. unfold add32. destruct (a + b <? 2 ^ 32); [eauto|]. destruct m; eauto. Qed.

Definition ok_or_panic {A} (m : mode) (r : res A) : Prop := (exists x, r = Ok x) \/ r = Panic.

Lemma oop_bind {A B} m (r : res A) (f : A -> res B) :
  ok_or_panic m r -> (forall x, ok_or_panic m (f x)) -> ok_or_panic m (bind r f).
Proof. intros [[x ->]| ->] H; [apply H|right; reflexivity]. Qed.

Lemma oop_add32 m a b : ok_or_panic m (add32 m a b).
Proof. destruct (add32_cases m a b) as [[n ->]|[_ ->]]; [left; eexists; reflexivity|right; reflexivity]. Qed.

Lemma oop_unwrap_nested m fn om a v r : ok_or_panic m r -> ok_or_panic m (unwrap (size_nested m fn om a v r)).
Proof.
  intros [[[n h] ->]| ->]; [|right; reflexivity].
  unfold size_nested. cbn [bind].
  destruct (is_some fn && om && omissible v n); [left; eexists; reflexivity|].
  assert (E : ok_or_panic m (match vwty v with Varint => Ok n | Sized => add32 m n (uv_size 32 n) end))
    by (destruct (vwty v); [left; eexists; reflexivity|apply oop_add32]).
  destruct E as [[n' ->]| ->]; [|right; reflexivity]. cbn [bind].
  destruct fn as [fn|]; [|left; eexists; reflexivity].
  unfold mk_tag, validate_field_number. destruct (FIELD_NUMBER_MAX <? fn); [right; reflexivity|].
  cbn [bind]. match goal with |- context [add32 m n' ?s] => destruct (oop_add32 m n' s) as [[n2 ->]| ->] end;
    [left; eexists; reflexivity|right; reflexivity].
Qed.

Lemma comp_slots_oop m a : forall sl i acc h,
  (forall s, In s sl -> forall b h, ok_or_panic m (compute m b (snd s) h)) ->
  ok_or_panic m (comp_slots m a i acc sl h).
Proof.
  induction sl as [|[[fn om] x] sl IH]; intros i acc h H; [left; eexists; reflexivity|].
  cbn [comp_slots]. apply oop_bind.
  - apply oop_unwrap_nested. apply (H _ (or_introl eq_refl)).
  - intros [n h']. apply oop_bind; [apply oop_add32|]. intros acc'. apply IH. intros s Hi. apply H. now right.
Qed.

Lemma compute_oop v : forall m a h, ok_or_panic m (compute m a v h).
Proof.
  induction v as [v L|v IH|v C IH] using val_slots_ind; intros m a h.
  - destruct v; try discriminate L; left; eexists; reflexivity.
  - cbn [compute]. apply IH.
  - rewrite Forall_forall in IH.
    assert (D : (exists x, v = VOpt (Some x)) \/ forall x, v <> VOpt (Some x)).
    { destruct v as [| | | |[x|]| | | | | | | | |]; try (right; congruence). left; eexists; reflexivity. }
    destruct D as [[x ->]|NS].
    + cbn [compute]. apply oop_unwrap_nested. apply (IH (islot x)). now left.
    + rewrite compute_slots by assumption. apply oop_bind.
      * destruct v; try (left; eexists; reflexivity; fail). apply oop_add32.
      * intros acc. apply comp_slots_oop. intros s Hi b h0. now apply IH.
Qed.

(** Some slot at any depth needs a field number above the maximum (and may not be left out). *)
Inductive ser_bad : val -> Prop :=
| sb_here v fn x : In ((Some fn, false), x) (slots v) -> FIELD_NUMBER_MAX < fn -> ser_bad v
| sb_box v : ser_bad v -> ser_bad (VBox v)
| sb_slot v s : In s (slots v) -> ser_bad (snd s) -> ser_bad v.

Lemma comp_slots_bad m a : forall sl i acc h s, In s sl ->
  ((exists fn x, s = ((Some fn, false), x) /\ FIELD_NUMBER_MAX < fn) \/
   (forall b h, compute m b (snd s) h = Panic)) ->
  comp_slots m a i acc sl h = Panic.
Proof.
  induction sl as [|[[fn om] x] sl IH]; intros i acc h s Hi Hs; [destruct Hi|].
  cbn [comp_slots]. destruct Hi as [<-|Hi].
  - destruct Hs as [[fn' [x' [E L]]]|Hs].
    + inversion E; subst. destruct (compute_oop x' m (i :: a) h) as [[[n h'] ->]| ->]; [|reflexivity].
      unfold size_nested. cbn [bind is_some andb].
      assert (E2 : ok_or_panic m (match vwty x' with Varint => Ok n | Sized => add32 m n (uv_size 32 n) end))
        by (destruct (vwty x'); [left; eexists; reflexivity|apply oop_add32]).
      destruct E2 as [[n' ->]| ->]; [|reflexivity]. cbn [bind].
      now rewrite mk_tag_err.
    + cbn [snd] in Hs. rewrite Hs. reflexivity.
  - destruct (oop_unwrap_nested m fn om (i :: a) x _ (compute_oop x m (i :: a) h)) as [[[n h'] ->]| ->];
      [|reflexivity]. cbn [bind].
    destruct (oop_add32 m acc n) as [[acc' ->]| ->]; [|reflexivity]. cbn [bind].
    now apply (IH _ _ _ s).
Qed.

Lemma compute_bad v : ser_bad v -> forall m a h, compute m a v h = Panic.
Proof.
  assert (Main : forall v s, In s (slots v) -> forall m a h,
    ((exists fn x, s = ((Some fn, false), x) /\ FIELD_NUMBER_MAX < fn) \/
     (forall b h, compute m b (snd s) h = Panic)) -> compute m a v h = Panic).
  { intros w s Hi m a h Hs.
    assert (C : composite w = true) by (destruct w; try reflexivity; destruct Hi).
    assert (D : (exists x, w = VOpt (Some x)) \/ forall x, w <> VOpt (Some x)).
    { destruct w as [| | | |[x|]| | | | | | | | |]; try (right; congruence). left; eexists; reflexivity. }
    destruct D as [[x ->]|NS].
    - destruct Hi as [<-|[]]. destruct Hs as [[fn [x' [E _]]]|Hs]; [discriminate E|].
      cbn [compute]. cbn [islot snd] in Hs. now rewrite Hs.
    - rewrite compute_slots by assumption.
      assert (E : ok_or_panic m (hdr_size m w)) by (destruct w; try (left; eexists; reflexivity; fail); apply oop_add32).
      destruct E as [[n ->]| ->]; [|reflexivity]. cbn [bind]. now apply (comp_slots_bad m a _ _ _ _ s). }
  induction 1 as [w fn x Hi L|w B IH|w s Hi B IH]; intros m a h.
  - apply (Main w _ Hi). left. eauto.
  - apply IH.
  - apply (Main w s Hi). right. intros. apply IH.
Qed.

Lemma to_bytes_bad v m h : ser_bad v -> to_bytes m v h = Panic.
Proof.
  intros B. unfold to_bytes, steit_serialize, cache_size. now rewrite compute_bad.
Qed.

Lemma unwritable_bad v : writable v = false -> ser_bad v.
Proof.
  assert (Gen : forall {A} (f : A -> bool) l, forallb f l = false -> exists x, In x l /\ f x = false).
  { intros A f. induction l as [|x l IH]; cbn; intros H; [discriminate H|].
    destruct (f x) eqn:E; [|exists x; auto]. destruct (IH H) as [y [Hy Ey]]. exists y; auto. }
  induction v as [v L|v IH|v C IH] using val_slots_ind; intros W.
  - destruct v; discriminate.
  - apply sb_box. now apply IH.
  - rewrite Forall_forall in IH.
    destruct v as [| | | |[x|]|l|l|l|l| |c r fs|tag c r fs|r l|r es]; try discriminate C; cbn [writable] in W.
    + apply sb_slot with (islot x); [now left|]. apply (IH (islot x)); [now left|exact W].
    + discriminate W.
    + apply Gen in W. destruct W as [x [Hi E]]. apply sb_slot with (islot x); [now apply in_map|].
      apply (IH (islot x)); [now apply in_map|exact E].
    + apply Gen in W. destruct W as [x [Hi E]]. apply sb_slot with (islot x); [now apply in_map|].
      apply (IH (islot x)); [now apply in_map|exact E].
    + apply Gen in W. destruct W as [x [Hi E]]. apply sb_slot with (islot x); [now apply in_map|].
      apply (IH (islot x)); [now apply in_map|exact E].
    + apply Gen in W. destruct W as [[k x] [Hi E]].
      assert (I1 : In (islot k) (slots (VHash l))) by (apply in_flat_map; exists (k, x); cbn; auto).
      assert (I2 : In (islot x) (slots (VHash l))) by (apply in_flat_map; exists (k, x); cbn; auto).
      destruct (writable k) eqn:E1.
      * apply sb_slot with (islot x); [exact I2|]. now apply (IH (islot x) I2).
      * apply sb_slot with (islot k); [exact I1|]. now apply (IH (islot k) I1).
    + apply Gen in W. destruct W as [p [Hi E]]. apply sb_slot with (fslot p); [now apply in_map|].
      apply (IH (fslot p)); [now apply in_map|]. destruct p; exact E.
    + apply Gen in W. destruct W as [p [Hi E]]. apply sb_slot with (fslot p); [now apply in_map|].
      apply (IH (fslot p)); [now apply in_map|]. destruct p; exact E.
    + apply Gen in W. destruct W as [x [Hi E]]. apply sb_slot with (islot x); [now apply in_map|].
      apply (IH (islot x)); [now apply in_map|exact E].
    + apply Gen in W. destruct W as [[k x] [Hi E]].
      assert (I1 : In (mslot (k, x)) (slots (VMap r es))) by (cbn [slots]; now apply in_map).
      destruct (k <=? FIELD_NUMBER_MAX) eqn:E1.
      * apply sb_slot with (mslot (k, x)); [exact I1|]. apply (IH _ I1). exact E.
      * apply sb_here with k x; [exact I1|lia].
Qed.
