(** C92: what the nested readers of a C# client copy. *)
From Verif Require Import Base Varint WireFmt Utf8 Types Ser Spec De Log State StateSpec ValInd VarintProofs WireProofs SerProofs TypeProofs DeProofs RoundTrip
  CSharp CSharpProofs CSharpSim CSharpSafe Weight WeightProofs Depth DepthProofs PropDepth CsWeight PropCsWeight CsCopy.
Local Open Scope nat_scope.

Lemma levels_field fs tag g t : assoc tag fs = Some (g, t) -> S (levels t) <= levels (CStruct fs).
Proof. intros A. apply assoc_in in A. cbn [levels]. apply le_n_S, most_in, in_map_iff. exists (tag, (g, t)). now split. Qed.
Lemma levels_variant vs tag fs : assoc tag vs = Some fs -> levels (CStruct fs) <= levels (CEnum vs).
Proof. intros A. apply assoc_in in A. cbn [levels]. apply most_in, in_map_iff. exists (tag, fs). now split. Qed.
Lemma assoc_costers J fs tag : assoc tag (costers J fs) = match assoc tag fs with Some (g, c) => Some (c_field_wty g c, copies J c) | None => None end.
Proof. induction fs as [|[tag' [g c]] cfs IH]; [reflexivity|]. cbn. destruct (tag =? tag')%N; [reflexivity|exact IH]. Qed.
Lemma copies_struct J fs bs : copies J (CStruct fs) bs =
  match c_new_fields fs with Ok xs => run_copies J (c_struct_step (c_readers fs)) (field_copies (costers J fs)) xs bs | _ => 0 end.
Proof. reflexivity. Qed.
Lemma copies_enum J vs bs : copies J (CEnum vs) bs =
  match c_new (CEnum vs), c_int U32 bs with
  | Ok _, Ok (tag, rest) =>
      match assoc (Z.to_N tag) vs with
      | Some fs => copies J (CStruct fs) rest
      | None => 0
      end
  | _, _ => 0
  end.
Proof.
  cbn [copies]. destruct (c_new (CEnum vs)) as [d|e| |]; try reflexivity. destruct (c_int U32 bs) as [[tag rest]|e| |]; try reflexivity.
  induction vs as [|[tag' fs] vs IH]; [reflexivity|]. cbn [assoc]. rewrite (N.eqb_sym (Z.to_N tag) tag'). destruct (tag' =? Z.to_N tag)%N; [reflexivity|exact IH].
Qed.

(** What a reader has left. *)
Definition left_of {A} (r : res (A * bytes)) : nat := match r with Ok (_, rest) => length rest | _ => 0 end.

(** A bound [B l n] for [n] bytes and [l] levels. *)
Section Bound.
  Context (J : nat -> nat -> nat) (JA : forall a b, J a b <= a + b).
  Context (B : nat -> nat -> nat).
  Context (Bmono : forall l a b, a <= b -> B l a <= B l b).
  Context (Bzero : forall l, B l 0 = 0).
  Context (Bread : forall l n, n <= B (S l) n).
  Context (Bnest : forall l s r n, 1 + s + r <= n -> s + B l s + B (S l) r <= B (S l) n).

  Definition spends (l : nat) (t : cty) : Prop := forall bs, copies J t bs + B l (left_of (c_deser t bs)) <= B l (length bs).

  Lemma loop_spends {S} l (step : S -> bytes -> res (S * bytes)) (ct : coster) :
    (forall s bs, ct bs + B l (left_of (step s bs)) <= B l (length bs)) ->
    forall f s bs, loop_copies J f step ct s bs <= B l (length bs).
  Proof.
    intros G. induction f as [|f IH]; intros s [|b bs]; cbn [loop_copies]; try (cbn [length]; lia).
    specialize (G s (b :: bs)). set (n := ct (b :: bs)) in *. destruct (step s (b :: bs)) as [[s' r]|e| |]; cbn [left_of] in G.
    - specialize (IH s' r). pose proof (JA n (loop_copies J f step ct s' r)). lia.
    - pose proof (JA n 0). lia.
    - pose proof (JA n 0). lia.
    - pose proof (JA n 0). lia.
  Qed.
  Lemma nested_spends l (ct : coster) bs : (forall sub, ct sub <= B l (length sub)) ->
    nested_copies ct bs + B (S l) (left_of (c_nested bs)) <= B (S l) (length bs).
  Proof.
    intros G. unfold nested_copies. destruct (c_nested bs) as [[sub r]|e| |] eqn:N; cbn [left_of]; rewrite ?Bzero; try lia.
    apply c_nested_len in N. specialize (G sub). pose proof (Bnest l _ _ _ N). lia.
  Qed.
  Lemma spends_le l t : spends l t -> forall bs, copies J t bs <= B l (length bs).
  Proof. intros H bs. specialize (H bs). lia. Qed.
  Lemma value_spends l t bs : (forall l', levels t <= l' -> spends l' t) -> match c_wty t with Varint => 0 | Sized => S (levels t) end <= l ->
    value_copies t (copies J t) bs + B l (left_of (c_value t (c_deser t) bs)) <= B l (length bs).
  Proof.
    intros P L. unfold value_copies, c_value. destruct (c_wty t) eqn:W.
    - apply P. destruct t; try discriminate W; cbn [levels]; lia.
    - destruct l as [|l]; [lia|]. pose proof (nested_spends l (copies J t) bs (spends_le l t (P l ltac:(lia)))) as H.
      destruct (c_nested bs) as [[sub r]|e| |]; cbn [bind left_of] in *; try lia.
      destruct (c_deser t sub) as [[x r']|e| |]; cbn [bind left_of] in *; rewrite ?Bzero; lia.
  Qed.
  Lemma field_spends l fs xs bs : (forall tag g t, assoc tag fs = Some (g, t) -> forall l', levels t <= l' -> spends l' t) -> levels (CStruct fs) <= l ->
    field_copies (costers J fs) bs + B l (left_of (c_struct_step (c_readers fs) xs bs)) <= B l (length bs).
  Proof.
    intros P L. unfold field_copies, c_struct_step. destruct (c_key bs) as [[[tag w] r]|e| |] eqn:E; cbn [bind left_of]; rewrite ?Bzero; try lia.
    apply (oks_ok _ _ _ (c_key_oks bs)) in E. destruct E as [_ E]. unfold shorter in E. cbn [snd] in E.
    pose proof (Bmono l (length r) (length bs) ltac:(lia)) as M. rewrite assoc_costers, assoc_readers. destruct w.
    - cbn [bind].
      assert (SK : B l (left_of (do (_, rest) <- c_bool r false; Ok (xs, rest))) <= B l (length bs)).
      { destruct (c_bool r false) as [[b r']|e| |] eqn:F; cbn [bind left_of]; rewrite ?Bzero; try lia.
        apply (oks_ok _ _ _ (c_bool_oks r false)) in F. unfold shorter in F. cbn [snd] in F. apply Bmono. lia. }
      destruct (assoc tag fs) as [[g t]|] eqn:A; [|lia]. destruct (wtype_eqb Varint (c_field_wty g t)); [|lia].
      pose proof (levels_field _ _ _ _ A) as F. specialize (P _ _ _ A l ltac:(lia) r).
      destruct (c_deser t r) as [[x rem]|e| |]; cbn [bind left_of] in *; rewrite ?Bzero; lia.
    - destruct l as [|l]; [cbn [levels] in L; lia|].
      assert (G : forall ct, (forall sub, ct sub <= B l (length sub)) -> nested_copies ct r + B (S l) (left_of (c_nested r)) <= B (S l) (length bs)).
      { intros ct G. pose proof (nested_spends l ct r G). lia. }
      destruct (assoc tag fs) as [[g t]|] eqn:A.
      + pose proof (levels_field _ _ _ _ A) as F. destruct (wtype_eqb Sized (c_field_wty g t)).
        * specialize (G _ (spends_le l t (P _ _ _ A l ltac:(lia)))). destruct (c_nested r) as [[sub r']|e| |]; cbn [bind left_of] in *; rewrite ?Bzero; try lia.
          destruct (c_deser t sub) as [[x rem]|e| |]; cbn [bind left_of]; rewrite ?Bzero; lia.
        * specialize (G (fun _ => 0) ltac:(intros; cbn beta; lia)). destruct (c_nested r) as [[sub r']|e| |]; cbn [bind left_of] in *; exact G.
      + specialize (G (fun _ => 0) ltac:(intros; cbn beta; lia)). destruct (c_nested r) as [[sub r']|e| |]; cbn [bind left_of] in *; exact G.
  Qed.
  Lemma struct_spends l fs bs : (forall tag g t, assoc tag fs = Some (g, t) -> forall l', levels t <= l' -> spends l' t) -> levels (CStruct fs) <= l ->
    copies J (CStruct fs) bs <= B l (length bs).
  Proof.
    intros P L. rewrite copies_struct. destruct (c_new_fields fs) as [xs|e| |]; try lia. apply loop_spends. intros s b. now apply field_spends.
  Qed.
  Lemma deser_spends t : forall l, levels t <= l -> spends l t.
  Proof.
    induction t using cty_slots; intros l L bs.
    - cbn [copies c_deser]. destruct (c_int k bs) as [[z r]|e| |] eqn:I; cbn [bind left_of]; rewrite ?Bzero; try lia.
      apply (oks_ok _ _ _ (c_int_oks k bs)) in I. destruct I as [_ I]. unfold shorter in I. cbn [snd] in I. apply Bmono. lia.
    - cbn [copies c_deser]. destruct (c_bool bs false) as [[z r]|e| |] eqn:I; cbn [bind left_of]; rewrite ?Bzero; try lia.
      apply (oks_ok _ _ _ (c_bool_oks bs false)) in I. unfold shorter in I. cbn [snd] in I. apply Bmono. lia.
    - cbn [copies c_deser left_of length levels] in *. destruct l as [|l]; [lia|]. rewrite Bzero. pose proof (Bread l (length bs)). lia.
    - cbn [copies c_deser left_of length levels] in *. destruct l as [|l]; [lia|]. rewrite Bzero. pose proof (Bread l (length bs)). lia.
    - cbn [copies c_deser levels] in *. destruct bs as [|b bs]; [cbn [left_of length]; lia|].
      pose proof (value_spends l t (b :: bs) IHt L) as V. destruct (c_value t (c_deser t) (b :: bs)) as [[y r]|e| |]; cbn [bind left_of] in *; lia.
    - cbn [copies c_deser levels] in *. assert (Z : left_of (do l0 <- crun (c_item_step t (c_deser t)) [] bs; Ok (CVVec l0, [])) = 0) by (now destruct (crun _ [] bs)).
      rewrite Z, Bzero. unfold run_copies. rewrite Nat.add_0_r. apply loop_spends. intros s b. pose proof (value_spends l t b IHt L) as V. unfold c_item_step.
      destruct (c_value t (c_deser t) b) as [[y r]|e| |]; cbn [bind left_of] in *; lia.
    - cbn [copies c_deser levels] in *. assert (Z : left_of (do l0 <- crun (c_item_step t (c_deser t)) [] bs; Ok (CVList l0, [])) = 0) by (now destruct (crun _ [] bs)).
      rewrite Z, Bzero. unfold run_copies. rewrite Nat.add_0_r. apply loop_spends. intros s b. pose proof (value_spends l t b IHt L) as V. unfold c_item_step.
      destruct (c_value t (c_deser t) b) as [[y r]|e| |]; cbn [bind left_of] in *; lia.
    - cbn [copies c_deser levels] in *. assert (Z : left_of (do l0 <- crun (c_map_step t (c_deser t)) [] bs; Ok (CVMap l0, [])) = 0) by (now destruct (crun _ [] bs)).
      rewrite Z, Bzero. unfold run_copies. rewrite Nat.add_0_r. apply loop_spends. intros s b. unfold c_map_step, map_copies.
      destruct (c_key b) as [[[tag w] r0]|e| |] eqn:E; cbn [bind left_of]; rewrite ?Bzero; try lia.
      apply (oks_ok _ _ _ (c_key_oks b)) in E. destruct E as [_ E]. unfold shorter in E. cbn [snd] in E.
      pose proof (Bmono l (length r0) (length b) ltac:(lia)) as M. pose proof (value_spends l t r0 IHt L) as V.
      destruct (c_value t (c_deser t) r0) as [[y r]|e| |]; cbn [bind left_of] in *; lia.
    - assert (Z : left_of (c_deser (CStruct fs) bs) = 0) by (rewrite c_deser_struct; destruct (c_new_fields fs); try reflexivity; cbn [bind]; now destruct (crun _ a bs)).
      rewrite Z, Bzero, Nat.add_0_r. apply struct_spends; [|exact L]. intros tag g t A. rewrite Forall_forall in H. exact (H (tag, (g, t)) (assoc_in _ _ _ A)).
    - assert (Z : left_of (c_deser (CEnum vs) bs) = 0).
      { rewrite c_deser_enum. destruct (c_new (CEnum vs)); cbn [bind]; try reflexivity. destruct (c_int U32 bs) as [[tag r]|e| |]; cbn [bind]; try reflexivity.
        destruct (assoc (Z.to_N tag) vs) as [fs|]; [|reflexivity]. destruct (c_new_fields fs) as [xs|e| |]; cbn [bind]; try reflexivity. now destruct (crun _ xs r). }
      rewrite Z, Bzero, Nat.add_0_r, copies_enum. destruct (c_new (CEnum vs)); try lia. destruct (c_int U32 bs) as [[tag r]|e| |] eqn:I; try lia.
      apply (oks_ok _ _ _ (c_int_oks U32 bs)) in I. destruct I as [_ I]. unfold shorter in I. cbn [snd] in I.
      destruct (assoc (Z.to_N tag) vs) as [fs|] eqn:A; [|lia]. pose proof (Bmono l (length r) (length bs) ltac:(lia)) as M. pose proof (levels_variant _ _ _ A) as LV.
      assert (G : copies J (CStruct fs) r <= B l (length r)); [|lia]. apply struct_spends; [|lia]. intros tag' g t A'.
      rewrite Forall_forall in H. pose proof (H _ (assoc_in _ _ _ A)) as H'. cbn [snd] in H'. rewrite Forall_forall in H'. exact (H' (tag', (g, t)) (assoc_in _ _ _ A')).
  Qed.

  Lemma made_spends l t bs n : levels t <= l -> length bs <= n -> copies J t bs <= B l n.
  Proof. intros L N. pose proof (spends_le l t (deser_spends t l L) bs). pose proof (Bmono l _ _ N). lia. Qed.
  Lemma child_levels t v tag t' x : c_child t v tag = Ok (Some (t', x)) -> levels t' <= levels t.
  Proof.
    intros E. destruct t; destruct v; try discriminate E; cbn [c_child] in E.
    - destruct (c_state t); [|discriminate E]. destruct (nth_error l (N.to_nat tag)) as [y|]; [|discriminate E]. injection E as <- <-. cbn [levels]. destruct t; cbn [c_wty levels]; lia.
    - destruct (c_state t); [|discriminate E]. destruct (assoc tag es) as [y|]; [|discriminate E]. injection E as <- <-. cbn [levels]. destruct t; cbn [c_wty levels]; lia.
    - destruct (assoc tag fs) as [[g t]|] eqn:A; [|discriminate E]. destruct (c_state t); [|discriminate E]. destruct (assoc tag fs0) as [y|]; [|discriminate E]. injection E as <- <-.
      pose proof (levels_field _ _ _ _ A). lia.
    - destruct (tag =? tag0)%N; [|discriminate E]. destruct (assoc tag vs) as [fs'|] eqn:A; [|discriminate E]. injection E as <- <-. exact (levels_variant _ _ _ A).
  Qed.
  Lemma at_spends op l n : (forall t v, levels t <= l -> op t v <= B l n) -> forall path t v, levels t <= l -> copies_at t v path op <= B l n.
  Proof.
    intros G. induction path as [|tag path IH]; intros t v L; cbn [copies_at]; [now apply G|]. destruct (c_child t v tag) as [[[t' x]|]|e| |] eqn:E; try lia.
    apply child_levels in E. apply IH. lia.
  Qed.
  Lemma handle_spends t e v l n : levels t <= l -> length (payload e) <= n -> handle_copies J t e v <= B l n.
  Proof.
    intros L P. destruct e as [path bs|path bs|path|path k]; cbn [handle_copies payload] in *; try lia.
    - destruct path as [|tag path]; [now apply made_spends|]. apply at_spends; [|exact L]. clear - P Bmono Bzero Bread Bnest JA. intros t v L. unfold replace_copies.
      destruct t; try lia; destruct v; try lia.
      + destruct (lenN l0 <=? _)%N; [lia|]. apply made_spends; [|exact P]. cbn [levels] in L. destruct t; cbn [c_wty levels] in *; lia.
      + apply made_spends; [|exact P]. cbn [levels] in L. destruct t; cbn [c_wty levels] in *; lia.
      + destruct (assoc _ fs) as [[g t]|] eqn:A; [|lia]. apply made_spends; [|exact P]. pose proof (levels_field _ _ _ _ A). lia.
      + destruct (assoc _ vs) as [fs'|] eqn:A; [|lia]. apply made_spends; [|exact P]. pose proof (levels_variant _ _ _ A). lia.
    - apply at_spends; [|exact L]. clear - P Bmono Bzero Bread Bnest JA. intros t v L. unfold push_copies. destruct t; try lia; destruct v; try lia.
      apply made_spends; [|exact P]. cbn [levels] in L. destruct t; cbn [c_wty levels] in *; lia.
  Qed.

  (** An entry has an array, is read with at most two more, and its payload is not copied. *)
  Context (Bsum : forall l a b n, a + b <= n -> B l a + B l b <= B l n).
  Lemma replay_spends t l : levels t <= l -> (forall sub, copies J cEntry sub <= 2 * length sub) ->
    forall f v bs, replay_loop_copies J f t v bs <= 3 * length bs + B l (length bs).
  Proof.
    intros L C. induction f as [|f IH]; intros v [|b bs]; cbn [replay_loop_copies]; try lia.
    unfold entry_copies, nested_copies, c_replay_step. destruct (c_nested (b :: bs)) as [[sub rest]|e| |] eqn:N; cbn [bind try]; try (pose proof (JA 0 0); lia).
    apply c_nested_len in N. specialize (C sub). set (h := match _ with Ok e => handle_copies J t e v | _ => 0 end).
    assert (H : h <= B l (length sub)).
    { unfold h. destruct (c_deser cEntry sub) as [[x r']|x| |] eqn:D; cbn [bind]; try lia. apply (deser_pays 0 1) in D; [|cbn; lia].
      change (cnew_weight 0 cEntry) with 0 in D. destruct (c_entry x) as [e'|y| |] eqn:E; try lia. apply handle_spends; [exact L|].
      assert (length (payload e') <= cweight 0 x); [|lia].
      unfold c_entry in E. destruct x; try discriminate E.
      repeat match type of E with context [match ?x with _ => _ end] => destruct x; try discriminate E end; injection E as <-; cbn; lia. }
    clearbody h. pose proof (Bsum l (length sub) (length rest) (length (b :: bs)) ltac:(lia)) as S.
    match goal with |- J ?x ?y <= _ => pose proof (JA x y) as Q; assert (Y : y <= 3 * length rest + B l (length rest)); [|lia] end. clear Q.
    destruct (c_deser cEntry sub) as [[x r']|x| |]; cbn [bind try]; try lia. destruct (c_entry x) as [e|y| |]; cbn [bind try]; try lia.
    destruct (c_handle t e v) as [v'|y| |]; cbn [bind try]; try lia. apply IH.
  Qed.
End Bound.

(** Two bounds: the levels of the class, and, whatever the class, half the square of the input. *)
Lemma line_nest l s r n : 1 + s + r <= n -> s + l * s + S l * r <= S l * n. Proof. nia. Qed.
Fixpoint tri (n : nat) : nat := match n with O => 0 | S n => S n + tri n end.
Lemma tri_twice n : 2 * tri n = n * (n + 1). Proof. induction n as [|n IH]; cbn [tri]; nia. Qed.
Lemma tri_mono a b : a <= b -> tri a <= tri b. Proof. induction 1 as [|b H IH]; cbn [tri]; lia. Qed.
Lemma tri_sum a b n : a + b <= n -> tri a + tri b <= tri n.
Proof. intros H. pose proof (tri_twice a). pose proof (tri_twice b). pose proof (tri_twice n). nia. Qed.
Lemma tri_nest (l : nat) s r n : 1 + s + r <= n -> s + tri s + tri r <= tri n.
Proof. intros H. pose proof (tri_twice s). pose proof (tri_twice r). pose proof (tri_twice n). nia. Qed.
Lemma tri_read n : n <= tri n. Proof. destruct n; cbn [tri]; lia. Qed.

Definition plain_join (J : nat -> nat -> nat) : Prop := forall a b, a <= J a b <= a + b.
Lemma joins : plain_join Nat.add /\ plain_join Nat.max. Proof. split; intros a b; lia. Qed.

(** Decoding any bytes, whether it succeeds or not: all that is copied, and so what is there at one time. *)
Theorem c92_decode : forall J t bs, plain_join J ->
  copies J t bs <= levels t * length bs /\ 2 * copies J t bs <= length bs * (length bs + 1).
Proof.
  intros J t bs H. assert (JA : forall a b, J a b <= a + b) by (intros; apply H). split.
  - apply (made_spends J JA Nat.mul); [intros; nia|intros; lia|intros; nia|apply line_nest|lia|lia].
  - rewrite <- tri_twice. assert (copies J t bs <= tri (length bs)); [|lia]. 
    apply (made_spends J JA (fun _ => tri)) with (l := levels t); [intros; now apply tri_mono|reflexivity|intros; apply tri_read|exact tri_nest|lia|lia].
Qed.
Print Assumptions c92_decode.

(** Replaying any bytes: an entry has three arrays in addition. *)
Theorem c92_replay : forall J t v bs, plain_join J ->
  replay_copies J t v bs <= (3 + levels t) * length bs /\ 2 * replay_copies J t v bs <= length bs * (length bs + 7).
Proof.
  intros J t v bs H. assert (JA : forall a b, J a b <= a + b) by (intros; apply H).
  assert (C : forall sub, copies J cEntry sub <= 2 * length sub) by (intros sub; exact (proj1 (c92_decode J cEntry sub H))). split.
  - assert (G : replay_copies J t v bs <= 3 * length bs + levels t * length bs); [|lia].
    apply (replay_spends J JA Nat.mul); [intros; nia|intros; lia|intros; nia|apply line_nest|intros; nia|lia|exact C].
  - assert (G : replay_copies J t v bs <= 3 * length bs + tri (length bs)); [|pose proof (tri_twice (length bs)); nia].
    apply (replay_spends J JA (fun _ => tri)) with (l := levels t); [intros; now apply tri_mono|reflexivity|intros; apply tri_read|exact tri_nest|intros; now apply tri_sum|lia|exact C].
Qed.
Print Assumptions c92_replay.

(** ** Reached *)

Lemma chain_cls n : cls (tChain n) (cChain n) = true.
Proof. induction n as [|n IH]; [reflexivity|]. cbn. now rewrite IH. Qed.
Lemma chain_levels n : levels (cChain n) = 2 * n + 1.
Proof. induction n as [|n IH]; [reflexivity|]. cbn [cChain levels map most]. replace (c_wty (cChain n)) with Sized by (now destruct n). lia. Qed.
Lemma chain_step n : let c := enc (vChain n) in enc (vChain (S n)) = 2%N :: leb128 (lenN (leb128 (lenN c) ++ c)) ++ leb128 (lenN c) ++ c.
Proof.
  intros c. cbn [vChain enc flat_map]. fold c. unfold delimited at 1 2. cbn [vwty]. replace (vwty (vChain n)) with Sized by (now destruct n). cbn [left_out].
  destruct (leb128 (lenN c) ++ c) as [|x l] eqn:Q; [apply app_eq_nil in Q; destruct Q as [Q _]; now apply leb128_nonempty in Q|].
  rewrite <- Q. unfold enc_tagged, delimited. cbn [vwty]. replace (vwty (vChain n)) with Sized by (now destruct n). rewrite app_nil_r. reflexivity.
Qed.
Lemma chain_long n : 3 * n <= length (enc (vChain n)).
Proof.
  induction n as [|n IH]; [cbn; lia|]. rewrite chain_step. cbn [length]. rewrite !app_length.
  assert (P : forall k, 1 <= length (leb128 k)) by (intros k; pose proof (leb128_nonempty k); destruct (leb128 k); [congruence|cbn [length]; lia]).
  pose proof (P (lenN (enc (vChain n)))). pose proof (P (lenN (leb128 (lenN (enc (vChain n))) ++ enc (vChain n)))). lia.
Qed.

(** What the reader of a chain meets: the field, an option in an array of its own, a chain in another. *)
Lemma chain_met n : n < 2 ^ 27 -> let c := enc (vChain n) in let o := leb128 (lenN c) ++ c in
  c_key (enc (vChain (S n))) = Ok (0%N, Sized, leb128 (lenN o) ++ o) /\ c_nested (leb128 (lenN o) ++ o) = Ok (o, []) /\ c_nested o = Ok (c, []) /\
  length c < length o.
Proof.
  intros L c o. assert (P28 : 2 ^ 28 = N.to_nat (2 ^ 28)) by (rewrite N2Nat.inj_pow; reflexivity). assert (P27 : 2 ^ 27 = N.to_nat (2 ^ 27)) by (rewrite N2Nat.inj_pow; reflexivity).
  pose proof (chain_enc n ltac:(lia)) as E. fold c in E.
  assert (C : (lenN c < 2 ^ 31 - 5)%N) by (unfold lenN; lia).
  assert (B : length (leb128 (lenN c)) <= 5) by (pose proof (leb128_len_le (lenN c) 4 ltac:(lia)) as Q; unfold lenN in Q at 1; lia).
  assert (B1 : 1 <= length (leb128 (lenN c))) by (pose proof (leb128_nonempty (lenN c)); destruct (leb128 (lenN c)); [congruence|cbn [length]; lia]).
  assert (O : (lenN o < 2 ^ 31)%N) by (unfold o, lenN in *; rewrite app_length; lia).
  split; [|split; [|split]].
  - rewrite chain_step. fold c. fold o. reflexivity.
  - pose proof (c_nested_spec o [] O) as H. now rewrite app_nil_r in H.
  - pose proof (c_nested_spec c [] ltac:(lia)) as H. now rewrite app_nil_r in H.
  - unfold o. rewrite app_length. lia.
Qed.
Lemma chain_read n : n < 2 ^ 27 -> c_deser (cChain n) (enc (vChain n)) = Ok (oChain n, []).
Proof.
  induction n as [|n IH]; intros L; [reflexivity|]. specialize (IH ltac:(lia)). destruct (chain_met n ltac:(lia)) as (K & N1 & N2 & Lo).
  cbn [cChain]. rewrite c_deser_struct. change (c_new_fields [(0%N, (false, COpt (cChain n)))]) with (Ok [(0%N, CVOpt None)]). cbn [bind]. unfold crun.
  destruct (enc (vChain (S n))) as [|b bs] eqn:E; [pose proof (chain_long (S n)) as Q; rewrite E in Q; cbn [length] in Q; lia|].
  cbn [length cloop]. unfold c_struct_step at 1. rewrite K. cbn [bind]. rewrite N1. cbn [bind]. rewrite assoc_readers. cbn [assoc]. change (0 =? 0)%N with true. cbn [c_field_wty c_wty wtype_eqb].
  set (c := enc (vChain n)) in *. set (o := leb128 (lenN c) ++ c) in *. cbn [c_deser]. destruct o as [|x o'] eqn:Q; [cbn [length] in Lo; lia|].
  unfold c_value. replace (c_wty (cChain n)) with Sized by (now destruct n). rewrite N2. cbn [bind]. rewrite IH. cbn [bind c_put]. change (0 =? 0)%N with true. cbn [oChain].
  destruct (length bs); reflexivity.
Qed.
Lemma chain_copies J n : plain_join J -> n < 2 ^ 27 -> 3 * n * n <= copies J (cChain n) (enc (vChain n)) + 2 * n.
Proof.
  intros H. induction n as [|n IH]; intros L; [cbn; lia|]. specialize (IH ltac:(lia)). destruct (chain_met n ltac:(lia)) as (K & N1 & N2 & Lo). pose proof (chain_long n) as Ln.
  cbn [cChain]. rewrite copies_struct. change (c_new_fields [(0%N, (false, COpt (cChain n)))]) with (Ok [(0%N, CVOpt None)]). unfold run_copies.
  destruct (enc (vChain (S n))) as [|b bs] eqn:E; [pose proof (chain_long (S n)) as Q; rewrite E in Q; cbn [length] in Q; lia|].
  cbn [length loop_copies]. match goal with |- _ <= J ?x ?y + _ => pose proof (proj1 (H x y)) as G; assert (X : 6 * n + 1 + copies J (cChain n) (enc (vChain n)) <= x); [clear G|nia] end.
  unfold field_copies. rewrite K, assoc_costers. cbn [assoc]. change (0 =? 0)%N with true. cbn [c_field_wty c_wty wtype_eqb]. unfold nested_copies. rewrite N1.
  set (c := enc (vChain n)) in *. set (o := leb128 (lenN c) ++ c) in *. cbn [copies]. destruct o as [|x o'] eqn:Q; [cbn [length] in Lo; lia|].
  unfold value_copies. replace (c_wty (cChain n)) with Sized by (now destruct n). unfold nested_copies. rewrite N2. lia.
Qed.

(** A class that holds itself reaches a square: 11 n bytes that Rust writes for a chain of [n] make a client that reads them hold
    3 n^2 - 2 n bytes at one time, and more than that are copied. *)
Theorem c92_reached : forall J n, plain_join J -> n < 2 ^ 27 ->
  cls (tChain n) (cChain n) = true /\ levels (cChain n) = 2 * n + 1 /\ length (enc (vChain n)) <= 11 * n /\
  c_deser (cChain n) (enc (vChain n)) = Ok (oChain n, []) /\ 3 * n * n - 2 * n <= copies J (cChain n) (enc (vChain n)).
Proof.
  intros J n H L. assert (L' : n < 2 ^ 28).
  { assert (P28 : 2 ^ 28 = N.to_nat (2 ^ 28)) by (rewrite N2Nat.inj_pow; reflexivity). assert (P27 : 2 ^ 27 = N.to_nat (2 ^ 27)) by (rewrite N2Nat.inj_pow; reflexivity). lia. }
  split; [apply chain_cls|]. split; [apply chain_levels|]. split; [now apply chain_enc|]. split; [now apply chain_read|].
  pose proof (chain_copies J n H L). lia.
Qed.
Print Assumptions c92_reached.

(** A chain of three; two options of strings in a list, whose arrays are not there together; an entry that pushes the string "ab";
    fields that are skipped, of which the sized one is copied. *)
Example c92_case :
  enc (vChain 3) = [2; 7; 6; 2; 4; 3; 2; 1; 0]%N /\ copies Nat.add (cChain 3) (enc (vChain 3)) = 21 /\ levels (cChain 3) = 7 /\
  (let t := CList (COpt CStr) in let bs := [4; 3; 65; 66; 67; 3; 2; 68; 69]%N in
   copies Nat.add t bs = 17 /\ copies Nat.max t bs = 10 /\ levels t = 3) /\
  replay_copies Nat.add (CList CStr) (CVList []) [5; 8; 10; 2; 97; 98]%N = 11 /\
  copies Nat.add (CStruct []) [10; 2; 7; 7; 16; 5]%N = 2.
Proof. vm_compute. repeat split. Qed.
