(** C89: objects that a C# client makes from untrusted bytes are at most linear in the number of bytes. *)
From Verif Require Import Base Varint WireFmt Utf8 Types Ser Spec De Log State StateSpec ValInd VarintProofs WireProofs SerProofs TypeProofs DeProofs RoundTrip
  CSharp CSharpProofs CSharpSim CSharpSafe Weight WeightProofs CsWeight.
Local Open Scope nat_scope.

Lemma oks_ok {A} (P : A -> Prop) r a : oks P r -> r = Ok a -> P a.
Proof. now intros H ->. Qed.
Lemma c_nested_len bs sub rest : c_nested bs = Ok (sub, rest) -> 1 + length sub + length rest <= length bs.
Proof.
  unfold c_nested. destruct (c_unsigned bs) as [[n r]|e| |] eqn:E; cbn [bind]; try discriminate.
  apply (oks_ok _ _ _ (c_varint_oks bs 0%N 0%N)) in E. unfold shorter in E. cbn [snd] in E. destruct (_ || _); [discriminate|]. intros H. injection H as H.
  apply splitN_concat in H. subst r. rewrite app_length in E. lia.
Qed.
Lemma splitN_exact {A} (l : list A) : forall n, (n <= lenN l)%N -> lenN (fst (splitN n l)) = n.
Proof.
  induction l as [|x l IH]; intros n H; unfold lenN in *; cbn [length splitN] in *; [cbn; lia|].
  destruct (n =? 0)%N eqn:E; [cbn [fst length]; lia|]. specialize (IH (n - 1)%N ltac:(lia)). destruct (splitN (n - 1) l). cbn [fst length] in *. lia.
Qed.
Lemma fields_weight c fs xs : c_new_fields fs = Ok xs -> cfields_weight c fs = c + sum (map (fun f => cweight c (snd f)) xs).
Proof. intros E. unfold cfields_weight, cnew_weight. now rewrite c_new_struct, E. Qed.
Lemma grain_field c fs tag g t : assoc tag fs = Some (g, t) -> Nat.max (cnew_weight c t) (cgrain c t) <= cfields_grain c fs.
Proof. intros A. apply assoc_in in A. apply most_in, in_map_iff. exists (tag, (g, t)). now split. Qed.
Lemma grain_variant c vs tag fs : assoc tag vs = Some fs -> Nat.max (cfields_weight c fs) (cfields_grain c fs) <= cgrain c (CEnum vs).
Proof. intros A. apply assoc_in in A. apply most_in, in_map_iff. exists (tag, fs). now split. Qed.

Section Grow.
  Variable c : nat.
  Variable K : nat.
  Notation W := (cweight c).
  Notation SF := (fun xs : list (N * cval) => sum (map (fun f => W (snd f)) xs)).

  Lemma put_grows tag x xs : SF (c_put tag x xs) <= SF xs + W x.
  Proof. induction xs as [|[tag' y] xs IH]; cbn [c_put]; [cbn; lia|]. destruct (tag =? tag')%N; cbn [map sum snd] in *; lia. Qed.
  Lemma put_swap tag x y xs : assoc tag xs = Some y -> SF (c_put tag x xs) + W y = SF xs + W x.
  Proof.
    induction xs as [|[tag' z] xs IH]; cbn [assoc c_put]; [discriminate|]. destruct (tag =? tag')%N; cbn [map sum snd]; intros H.
    - injection H as ->. lia.
    - specialize (IH H). lia.
  Qed.
  Notation SM := (fun xs : list (N * cval) => sum (map (fun f => c + W (snd f)) xs)).
  Lemma put_swap_map tag x y xs : assoc tag xs = Some y -> SM (c_put tag x xs) + W y = SM xs + W x.
  Proof.
    induction xs as [|[tag' z] xs IH]; cbn [assoc c_put]; [discriminate|]. destruct (tag =? tag')%N; cbn [map sum snd]; intros H.
    - injection H as ->. lia.
    - specialize (IH H). lia.
  Qed.
  Lemma insert_grows tag x xs : SM (im_insert tag x xs) <= SM xs + (c + W x).
  Proof. induction xs as [|[tag' y] xs IH]; cbn [im_insert]; [cbn; lia|]. destruct (tag =? tag')%N; cbn [map sum snd] in *; lia. Qed.
  Lemma set_swap i x y l : nth_error l i = Some y -> sum (map W (set_nth l i x)) + W y = sum (map W l) + W x.
  Proof.
    revert l. induction i as [|i IH]; intros [|z l] H; try discriminate H; cbn [nth_error set_nth map sum] in *.
    - injection H as ->. lia.
    - specialize (IH l H). lia.
  Qed.
  Lemma set_grows i x l : sum (map W (set_nth l i x)) <= sum (map W l) + W x.
  Proof. revert l. induction i as [|i IH]; intros [|z l]; cbn [set_nth map sum]; try lia. specialize (IH l). lia. Qed.
  Lemma removelast_weight l : sum (map W (removelast l)) <= sum (map W l).
  Proof. induction l as [|x [|y l] IH]; cbn [removelast map sum] in *; lia. Qed.
  Lemma filter_weight p xs : SM (filter p xs) <= SM xs.
  Proof. induction xs as [|x xs IH]; [reflexivity|]. cbn [filter]. destruct (p x); cbn [map sum] in *; lia. Qed.

  (** What a reader makes is paid for by what it reads and by a new object. *)
  Definition pays (t : cty) : Prop := forall bs x rest, c_deser t bs = Ok (x, rest) -> W x + K * length rest <= cnew_weight c t + K * length bs.
  Lemma cloop_pays {S} (w : S -> nat) step : (forall s bs s' rest, step s bs = Ok (s', rest) -> w s' + K * length rest <= w s + K * length bs) ->
    forall f s bs s', cloop f step s bs = Ok s' -> w s' <= w s + K * length bs.
  Proof.
    intros G. induction f as [|f IH]; intros s bs s'; destruct bs as [|b bs]; cbn [cloop]; intros H; try discriminate H; try (injection H as ->; lia).
    destruct (step s (b :: bs)) as [[s1 r]|e| |] eqn:E; try discriminate H. cbn [bind] in H. apply G in E. apply IH in H. lia.
  Qed.
  Lemma value_pays t bs x rest : pays t -> cnew_weight c t <= K -> c_value t (c_deser t) bs = Ok (x, rest) -> W x + K * length rest <= K * length bs.
  Proof.
    intros P D. unfold c_value. destruct (c_wty t) eqn:E.
    - destruct t; try discriminate E; cbn [c_deser].
      + destruct (c_int k bs) as [[z r]|e| |] eqn:I; cbn [bind]; try discriminate. intros H. injection H as <- <-.
        apply (oks_ok _ _ _ (c_int_oks k bs)) in I. destruct I as [_ I]. unfold shorter in I. cbn [snd] in I. change (cnew_weight c (CInt k)) with c in D. cbn [cweight]. nia.
      + destruct (c_bool bs false) as [[z r]|e| |] eqn:I; cbn [bind]; try discriminate. intros H. injection H as <- <-.
        apply (oks_ok _ _ _ (c_bool_oks bs false)) in I. unfold shorter in I. cbn [snd] in I. change (cnew_weight c CBool) with c in D. cbn [cweight]. nia.
    - destruct (c_nested bs) as [[sub r]|e| |] eqn:N; cbn [bind]; try discriminate. apply c_nested_len in N.
      destruct (c_deser t sub) as [[y r']|e| |] eqn:Y; cbn [bind]; try discriminate. apply P in Y. intros H. injection H as <- <-. nia.
  Qed.
  Lemma struct_step_pays fs : (forall tag g t, assoc tag fs = Some (g, t) -> pays t) -> cfields_grain c fs <= K ->
    forall xs bs xs' rest, c_struct_step (c_readers fs) xs bs = Ok (xs', rest) -> SF xs' + K * length rest <= SF xs + K * length bs.
  Proof.
    intros P G xs bs xs' rest. unfold c_struct_step. destruct (c_key bs) as [[[tag w] r]|e| |] eqn:E; cbn [bind]; try discriminate.
    apply (oks_ok _ _ _ (c_key_oks bs)) in E. destruct E as [_ E]. unfold shorter in E. cbn [snd] in E.
    destruct w.
    - cbn [bind]. assert (SK : forall xs' rest, (do (_, rest) <- c_bool r false; Ok (xs, rest)) = Ok (xs', rest) -> SF xs' + K * length rest <= SF xs + K * length bs).
      { clear xs' rest. intros xs' rest. destruct (c_bool r false) as [[b r']|e| |] eqn:B; cbn [bind]; try discriminate. intros H. injection H as <- <-.
        apply (oks_ok _ _ _ (c_bool_oks r false)) in B. unfold shorter in B. cbn [snd] in B. nia. }
      rewrite assoc_readers. destruct (assoc tag fs) as [[g t]|] eqn:A; [|apply SK]. destruct (wtype_eqb Varint (c_field_wty g t)); [|apply SK]. clear SK.
      destruct (c_deser t r) as [[x rem]|e| |] eqn:X; cbn [bind]; try discriminate. apply (P _ _ _ A) in X. intros H. injection H as <- <-.
      pose proof (grain_field c _ _ _ _ A). pose proof (put_grows tag x xs). nia.
    - destruct (c_nested r) as [[sub r']|e| |] eqn:N; cbn [bind]; try discriminate. apply c_nested_len in N.
      assert (SK : forall xs' rest, Ok (xs, r') = Ok (xs', rest) -> SF xs' + K * length rest <= SF xs + K * length bs).
      { clear xs' rest. intros xs' rest H. injection H as <- <-. nia. }
      rewrite assoc_readers. destruct (assoc tag fs) as [[g t]|] eqn:A; [|apply SK]. destruct (wtype_eqb Sized (c_field_wty g t)); [|apply SK]. clear SK.
      destruct (c_deser t sub) as [[x rem]|e| |] eqn:X; cbn [bind]; try discriminate. apply (P _ _ _ A) in X. intros H. injection H as <- <-.
      pose proof (grain_field c _ _ _ _ A). pose proof (put_grows tag x xs). nia.
  Qed.
  Lemma struct_pays fs bs xs xs' : (forall tag g t, assoc tag fs = Some (g, t) -> pays t) -> cfields_grain c fs <= K ->
    c_new_fields fs = Ok xs -> crun (c_struct_step (c_readers fs)) xs bs = Ok xs' -> c + SF xs' <= cfields_weight c fs + K * length bs.
  Proof.
    intros P G N R. rewrite (fields_weight c fs xs N). apply (cloop_pays SF) in R; [lia|]. now apply struct_step_pays.
  Qed.
  Lemma deser_pays t : cgrain c t <= K -> pays t.
  Proof.
    induction t using cty_slots; intros G bs x rest.
    - cbn [c_deser]. destruct (c_int k bs) as [[z r]|e| |] eqn:I; cbn [bind]; try discriminate. intros H. injection H as <- <-.
      apply (oks_ok _ _ _ (c_int_oks k bs)) in I. destruct I as [_ I]. unfold shorter in I. cbn [snd] in I. change (cnew_weight c (CInt k)) with c. cbn [cweight]. nia.
    - cbn [c_deser]. destruct (c_bool bs false) as [[z r]|e| |] eqn:I; cbn [bind]; try discriminate. intros H. injection H as <- <-.
      apply (oks_ok _ _ _ (c_bool_oks bs false)) in I. unfold shorter in I. cbn [snd] in I. change (cnew_weight c CBool) with c. cbn [cweight]. nia.
    - cbn [c_deser]. intros H. injection H as <- <-. change (cnew_weight c CStr) with c. cbn [cgrain cweight length] in *. nia.
    - cbn [c_deser]. intros H. injection H as <- <-. change (cnew_weight c CBytes) with (c + 0). cbn [cgrain cweight length] in *. nia.
    - cbn [c_deser]. change (cnew_weight c (COpt t)) with c. cbn [cgrain] in G. destruct bs as [|b bs].
      + intros H. injection H as <- <-. cbn [cweight]. lia.
      + destruct (c_value t (c_deser t) (b :: bs)) as [[y r]|e| |] eqn:V; cbn [bind]; try discriminate. intros H. injection H as <- <-.
        apply value_pays in V; [|apply IHt; lia|lia]. cbn [cweight]. lia.
    - cbn [c_deser]. change (cnew_weight c (CVec t)) with (c + 0). cbn [cgrain] in G. destruct (crun _ [] bs) as [l|e| |] eqn:R; cbn [bind]; try discriminate.
      intros H. injection H as <- <-. apply (cloop_pays (fun l => sum (map W l))) in R.
      + cbn [cweight length map sum] in *. lia.
      + intros l0 b l' r. unfold c_item_step. destruct (c_value t (c_deser t) b) as [[y r']|e| |] eqn:V; cbn [bind]; try discriminate. intros H. injection H as <- <-.
        apply value_pays in V; [|apply IHt; lia|lia]. rewrite map_app, sum_app. cbn [map sum]. lia.
    - cbn [c_deser]. change (cnew_weight c (CList t)) with (c + 0). cbn [cgrain] in G. destruct (crun _ [] bs) as [l|e| |] eqn:R; cbn [bind]; try discriminate.
      intros H. injection H as <- <-. apply (cloop_pays (fun l => sum (map W l))) in R.
      + cbn [cweight length map sum] in *. lia.
      + intros l0 b l' r. unfold c_item_step. destruct (c_value t (c_deser t) b) as [[y r']|e| |] eqn:V; cbn [bind]; try discriminate. intros H. injection H as <- <-.
        apply value_pays in V; [|apply IHt; lia|lia]. rewrite map_app, sum_app. cbn [map sum]. lia.
    - cbn [c_deser]. change (cnew_weight c (CMap t)) with (c + 0). cbn [cgrain] in G. destruct (crun _ [] bs) as [l|e| |] eqn:R; cbn [bind]; try discriminate.
      intros H. injection H as <- <-. apply (cloop_pays SM) in R.
      + cbn [cweight length map sum] in *. lia.
      + intros l0 b l' r. unfold c_map_step. destruct (c_key b) as [[[tag w] r0]|e| |] eqn:E; cbn [bind]; try discriminate.
        apply (oks_ok _ _ _ (c_key_oks b)) in E. destruct E as [_ E]. unfold shorter in E. cbn [snd] in E.
        destruct (c_value t (c_deser t) r0) as [[y r']|e| |] eqn:V; cbn [bind]; try discriminate. intros H. injection H as <- <-.
        apply value_pays in V; [|apply IHt; lia|lia]. pose proof (insert_grows tag y l0). nia.
    - rewrite c_deser_struct. destruct (c_new_fields fs) as [xs|e| |] eqn:N; cbn [bind]; try discriminate. destruct (crun _ xs bs) as [xs'|e| |] eqn:R; cbn [bind]; try discriminate.
      intros E. injection E as <- <-. apply (struct_pays fs bs xs xs') in R; [|intros tag g t A|exact G|exact N].
      + cbn [cweight length]. unfold cfields_weight in R. lia.
      + rewrite Forall_forall in H. apply (H (tag, (g, t)) (assoc_in _ _ _ A)). cbn [snd]. pose proof (grain_field c _ _ _ _ A). unfold cfields_grain in *. lia.
    - rewrite c_deser_enum. unfold cnew_weight. destruct (c_new (CEnum vs)) as [d|e| |] eqn:D; cbn [bind]; try discriminate.
      assert (D2 : 2 * c <= W d).
      { rewrite c_new_enum in D. destruct (assoc 0%N vs) as [fs|]; [|discriminate]. destruct (c_new_fields fs) as [xs|e| |]; try discriminate. injection D as <-. cbn [cweight]. lia. }
      destruct (c_int U32 bs) as [[tag r]|e| |] eqn:I; cbn [bind]; try discriminate.
      apply (oks_ok _ _ _ (c_int_oks U32 bs)) in I. destruct I as [_ I]. unfold shorter in I. cbn [snd] in I.
      destruct (assoc (Z.to_N tag) vs) as [fs|] eqn:A.
      + destruct (c_new_fields fs) as [xs|e| |] eqn:N; cbn [bind]; try discriminate. destruct (crun _ xs r) as [xs'|e| |] eqn:R; cbn [bind]; try discriminate.
        intros E. injection E as <- <-. pose proof (grain_variant c _ _ _ A) as GV. apply (struct_pays fs r xs xs') in R; [|intros tag' g t A'|lia|exact N].
        * cbn [cweight length]. nia.
        * rewrite Forall_forall in H. pose proof (H _ (assoc_in _ _ _ A)) as H'. cbn [snd] in H'. rewrite Forall_forall in H'. apply (H' (tag', (g, t)) (assoc_in _ _ _ A')).
          cbn [snd]. pose proof (grain_field c _ _ _ _ A'). lia.
      + intros E. injection E as <- <-. cbn [length]. lia.
  Qed.

  (** Replay: an operation on an object of a type within reach. *)
  Notation R t := (Nat.max (cnew_weight c t) (cgrain c t) <= K).
  Definition op_pays (n : nat) (op : cty -> cval -> res cval) : Prop := forall t v v', R t -> op t v = Ok v' -> W v' <= W v + K * n.
  Lemma made_pays t bs x rest : R t -> c_deser t bs = Ok (x, rest) -> W x <= cnew_weight c t + K * length bs.
  Proof. intros L E. apply deser_pays in E; [nia|lia]. Qed.
  Lemma child_pays t v tag t' x : R t -> c_child t v tag = Ok (Some (t', x)) ->
    R t' /\ forall x' n, W x' <= W x + n -> W (c_put_child v tag x') <= W v + n.
  Proof.
    intros L E. destruct t; destruct v; try discriminate E; cbn [c_child] in E.
    - destruct (c_state t); [|discriminate E]. destruct (nth_error l (N.to_nat tag)) as [y|] eqn:Ny; [|discriminate E]. injection E as <- <-. cbn [cgrain] in L. split; [lia|].
      intros x' n H. cbn [c_put_child cweight]. pose proof (set_swap _ x' _ _ Ny). lia.
    - destruct (c_state t); [|discriminate E]. destruct (assoc tag es) as [y|] eqn:Ny; [|discriminate E]. injection E as <- <-. cbn [cgrain] in L. split; [lia|].
      intros x' n H. cbn [c_put_child cweight]. pose proof (put_swap_map _ x' _ _ Ny). lia.
    - destruct (assoc tag fs) as [[g t]|] eqn:A; [|discriminate E]. destruct (c_state t); [|discriminate E]. destruct (assoc tag fs0) as [y|] eqn:Ny; [|discriminate E].
      injection E as <- <-. pose proof (grain_field c _ _ _ _ A). unfold cfields_grain in *. split; [lia|].
      intros x' n H'. cbn [c_put_child cweight]. pose proof (put_swap _ x' _ _ Ny). lia.
    - destruct (tag =? tag0)%N; [|discriminate E]. destruct (assoc tag vs) as [cfs|] eqn:A; [|discriminate E]. injection E as <- <-.
      pose proof (grain_variant c _ _ _ A). unfold cfields_weight, cfields_grain in *. split; [lia|].
      intros x' n H'. cbn [c_put_child]. destruct x'; try lia. cbn [cweight] in *. lia.
  Qed.
  Lemma modify_pays n op : op_pays n op -> forall path t v v', R t -> c_modify t v path op = Ok v' -> W v' <= W v + K * n.
  Proof.
    intros P. induction path as [|tag path IH]; intros t v v' L; cbn [c_modify]; [now apply P|].
    destruct (c_child t v tag) as [[[t' x]|]|e| |] eqn:E; cbn [bind]; try discriminate.
    - destruct (c_modify t' x path op) as [x'|e| |] eqn:M; cbn [bind]; try discriminate. intros H. injection H as <-.
      destruct (child_pays t v tag t' x L E) as [L' Q]. apply Q. now apply (IH t').
    - intros H. injection H as <-. lia.
  Qed.
  Lemma replace_pays tag bs : op_pays (1 + length bs) (c_replace_at tag bs).
  Proof.
    intros t v v' L. destruct t; destruct v; cbn [c_replace_at]; try discriminate; try (intros H; injection H as <-; lia).
    - destruct (_ <=? _)%N; [discriminate|]. destruct (c_deser t bs) as [[x r]|e| |] eqn:D; cbn [bind]; try discriminate. intros H. injection H as <-. cbn [cgrain] in L.
      apply made_pays in D; [|lia]. cbn [cweight]. pose proof (set_grows (N.to_nat tag) x l). nia.
    - destruct (c_deser t bs) as [[x r]|e| |] eqn:D; cbn [bind]; try discriminate. intros H. injection H as <-. cbn [cgrain] in L.
      apply made_pays in D; [|lia]. cbn [cweight]. pose proof (insert_grows tag x es). nia.
    - destruct (assoc tag fs) as [[g t]|] eqn:A; [|intros H; injection H as <-; lia]. pose proof (grain_field c _ _ _ _ A). unfold cfields_grain in *.
      destruct (c_deser t bs) as [[x r]|e| |] eqn:D; cbn [bind]; try discriminate. intros H'. injection H' as <-.
      apply made_pays in D; [|lia]. cbn [cweight]. pose proof (put_grows tag x fs0). nia.
    - destruct (assoc tag vs) as [cfs|] eqn:A; [|intros H; injection H as <-; lia]. pose proof (grain_variant c _ _ _ A). unfold cfields_weight, cfields_grain in *.
      destruct (c_deser (CStruct cfs) bs) as [[x r]|e| |] eqn:D; cbn [bind]; try discriminate. destruct x; try discriminate. intros H'. injection H' as <-.
      apply made_pays in D; [|lia]. cbn [cweight] in *. nia.
  Qed.
  Lemma push_pays bs : op_pays (1 + length bs) (c_push bs).
  Proof.
    intros t v v' L. destruct t; destruct v; cbn [c_push]; try discriminate. destruct (c_deser t bs) as [[x r]|e| |] eqn:D; cbn [bind]; try discriminate.
    intros H. injection H as <-. cbn [cgrain] in L. apply made_pays in D; [|lia]. cbn [cweight]. rewrite map_app, sum_app. cbn [map sum]. nia.
  Qed.
  Lemma pop_pays : op_pays 0 c_pop.
  Proof.
    intros t v v' L. destruct t; destruct v; cbn [c_pop]; try discriminate. destruct l as [|x l]; [discriminate|]. intros H. injection H as <-.
    pose proof (removelast_weight (x :: l)) as L'. change (removelast (x :: l)) with (match l with [] => [] | _ :: _ => x :: removelast l end) in L'. cbn [cweight]. lia.
  Qed.
  Lemma remove_pays k : op_pays 0 (c_remove k).
  Proof.
    intros t v v' L. destruct t; destruct v; cbn [c_remove]; try discriminate. destruct (assoc k es); [|discriminate]. intros H. injection H as <-. cbn [cweight].
    pose proof (filter_weight (fun e => negb (fst e =? k)%N) es). lia.
  Qed.
  Definition payload (e : entry) : bytes := match e with EUpdate _ bs | EListPush _ bs => bs | _ => [] end.
  Lemma handle_pays t e v v' : R t -> c_handle t e v = Ok v' -> W v' <= W v + K * (1 + length (payload e)).
  Proof.
    intros L. destruct e as [p bs|p bs|p|p k]; cbn [c_handle payload].
    - destruct p as [|n p].
      + destruct (c_deser t bs) as [[x r]|e| |] eqn:D; cbn [bind]; try discriminate. intros H. injection H as <-. apply made_pays in D; [|exact L]. nia.
      + intros H. apply (modify_pays _ _ (replace_pays _ bs)) in H; assumption.
    - intros H. apply (modify_pays _ _ (push_pays bs)) in H; assumption.
    - intros H. apply (modify_pays 0 _ pop_pays) in H; [lia|exact L].
    - intros H. apply (modify_pays 0 _ (remove_pays k)) in H; [lia|exact L].
  Qed.
End Grow.

(** An entry that is read has taken its payload and one byte more. *)
Lemma c_next_len bs e rest : c_next bs = Ok (e, rest) -> 1 + length (payload e) + length rest <= length bs.
Proof.
  unfold c_next. destruct (c_nested bs) as [[sub r]|x| |] eqn:N; cbn [bind]; try discriminate. apply c_nested_len in N.
  destruct (c_deser cEntry sub) as [[x r']|x| |] eqn:D; cbn [bind]; try discriminate. apply (deser_pays 0 1) in D; [|cbn; lia].
  change (cnew_weight 0 cEntry) with 0 in D. destruct (c_entry x) as [e'|y| |] eqn:E; cbn [bind]; try discriminate. intros H. injection H as <- <-.
  assert (L : length (payload e') <= cweight 0 x).
  { unfold c_entry in E. destruct x; try discriminate E.
    repeat match type of E with context [match ?x with _ => _ end] => destruct x; try discriminate E end;
    injection E as <-; cbn; lia. }
  lia.
Qed.

(** Decoding: a new object and a grain for each byte. *)
Theorem c89_decode : forall c t bs v rest, c_deser t bs = Ok (v, rest) ->
  cweight c v + cgrain c t * length rest <= cnew_weight c t + cgrain c t * length bs.
Proof. intros c t bs v rest E. now apply (deser_pays c (cgrain c t) t (Nat.le_refl _)) in E. Qed.
Print Assumptions c89_decode.

(** Replaying any bytes, whether an exception comes or not. *)
Theorem c89_replay : forall c t v bs, cweight c (fst (c_replay t v bs)) <= cweight c v + Nat.max (cnew_weight c t) (cgrain c t) * length bs.
Proof.
  intros c t v bs. unfold c_replay. set (K := Nat.max (cnew_weight c t) (cgrain c t)).
  assert (G1 : grows1 K (cweight c) (c_replay_step t)).
  { intros s b _. rewrite c_step_next. destruct (c_next b) as [[e rest]|x| |] eqn:N; cbn [bind try fst snd left_over]; try lia.
    apply c_next_len in N. destruct (c_handle t e s) as [s'|x| |] eqn:H; cbn [bind try fst snd left_over]; try lia.
    apply (handle_pays c K) in H; [nia|]. reflexivity. }
  pose proof (run_grows K (cweight c) _ G1 v bs) as G. destruct (run (c_replay_step t) v bs) as [v' o]. cbn [fst snd] in *. lia.
Qed.
Print Assumptions c89_replay.

(** The factor cannot be smaller: [n] bytes make [n] options, so each of them makes one. *)
Theorem c89_reached : forall c n bs, bs = repeat 0%N n ->
  exists v, c_deser (CVec (COpt CBool)) bs = Ok (v, []) /\
    cweight c v = cnew_weight c (CVec (COpt CBool)) + cgrain c (CVec (COpt CBool)) * length bs /\ cgrain c (CVec (COpt CBool)) = c.
Proof.
  intros c n bs ->. exists (CVVec (repeat (CVOpt None) n)). rewrite repeat_length.
  assert (ST : forall l j, c_item_step (COpt CBool) (c_deser (COpt CBool)) l (0%N :: repeat 0%N j) = Ok (l ++ [CVOpt None], repeat 0%N j)).
  { intros l j. unfold c_item_step, c_value, c_nested. cbn [c_wty].
    replace (c_unsigned (0%N :: repeat 0%N j)) with (Ok (0%N, repeat 0%N j)) by reflexivity. cbn [bind]. change (0 mod 2 ^ 32)%N with 0%N.
    replace ((2 ^ 31 <=? 0)%N || (lenN (repeat 0%N j) <? 0)%N) with false by (symmetry; destruct (N.ltb_spec (lenN (repeat 0%N j)) 0); [lia|reflexivity]).
    replace (splitN 0 (repeat 0%N j)) with (@nil N, repeat 0%N j) by (now destruct j). reflexivity. }
  assert (R : forall i f l, i <= f -> cloop f (c_item_step (COpt CBool) (c_deser (COpt CBool))) l (repeat 0%N i) = Ok (l ++ repeat (CVOpt None) i)).
  { induction i as [|j IH]; intros [|f] l Lf; try (cbn; now rewrite app_nil_r); [lia|]. cbn [repeat cloop]. rewrite ST. cbn [bind]. rewrite IH by lia.
    now rewrite <- app_assoc. }
  assert (Gr : cgrain c (CVec (COpt CBool)) = c) by (cbn; lia). rewrite Gr. split; [|split; [|reflexivity]].
  - cbn [c_deser]. unfold crun. rewrite repeat_length. change (fun bs : bytes => match bs with [] => _ | _ => _ end) with (c_deser (COpt CBool)). rewrite R by lia. reflexivity.
  - change (cnew_weight c (CVec (COpt CBool))) with (c + 0). cbn [cweight].
    assert (S : forall j, sum (map (cweight c) (repeat (CVOpt None) j)) = c * j) by (induction j as [|j IH]; [cbn; lia|cbn [repeat map sum cweight]; rewrite IH; lia]).
    rewrite S. lia.
Qed.
Print Assumptions c89_reached.

(** Announced sizes: the array that is asked for has as many bytes as are read into it, or the size is negative and
    the runtime throws; and it is smaller than what there is to read. *)
Theorem c89_buffer : forall bs z, c_read_request bs = Some z ->
  ((z < 0)%Z /\ c_nested bs = Panic) \/
  ((0 <= z < Z.of_nat (length bs))%Z /\ exists sub rest, c_nested bs = Ok (sub, rest) /\ Z.of_nat (length sub) = z).
Proof.
  intros bs z. unfold c_read_request, c_nested. destruct (c_unsigned bs) as [[n r]|e| |] eqn:E; cbn [bind]; try discriminate.
  apply (oks_ok _ _ _ (c_varint_oks bs 0%N 0%N)) in E. unfold shorter in E. cbn [snd] in E.
  assert (M : Z.of_N (n mod 2 ^ 32) = (Z.of_N n mod 2 ^ 32)%Z) by (rewrite N2Z.inj_mod; reflexivity).
  assert (B : (n mod 2 ^ 32 < 2 ^ 32)%N) by (apply N.mod_lt; discriminate). set (s := (n mod 2 ^ 32)%N) in *.
  unfold swrap. change (2 ^ Z.of_N 32)%Z with (2 ^ 32)%Z. rewrite <- M. clear M. clearbody s. change (2 ^ 32 / 2)%Z with 2147483648%Z. change (2 ^ 32)%Z with 4294967296%Z.
  change (2 ^ 31)%N with 2147483648%N. change (2 ^ 32)%N with 4294967296%N in B.
  destruct (Z.ltb_spec (Z.of_N s) 2147483648) as [S|S]; intros H.
  - destruct (Z.ltb_spec (Z.of_nat (length r)) (Z.of_N s)) as [T|T]; [discriminate H|]. injection H as <-. right. split; [lia|].
    destruct (N.leb_spec 2147483648 s); [lia|]. destruct (N.ltb_spec (lenN r) s) as [V|V]; [unfold lenN in V; lia|]. cbn [orb].
    destruct (splitN s r) as [sub rest] eqn:Sp. exists sub, rest. split; [reflexivity|].
    pose proof (splitN_exact r s V) as SL. rewrite Sp in SL. cbn [fst] in SL. unfold lenN in *. lia.
  - destruct (Z.ltb_spec (Z.of_nat (length r)) (Z.of_N s - 4294967296)) as [T|T]; [discriminate H|]. injection H as <-. left. split; [lia|].
    destruct (N.leb_spec 2147483648 s); [reflexivity|lia].
Qed.
Print Assumptions c89_buffer.

(** Objects of an enum whose variants hold a list of structs and a string: three bytes that make three structs, a byte
    that makes a variant; a log of two entries that each push a struct with two bytes more; sizes that are announced
    but not there, and one that is negative. *)
Example c89_case :
  let point := CStruct [(0, (false, CInt U32)); (1, (false, CMap CBool))]%N in
  let big := CEnum [(0, []); (1, [(0, (false, CList point)); (1, (false, CStr))])]%N in
  let got (x : res (cval * bytes)) := match x with Ok (v, _) => Some (cweight 1 v) | _ => None end in
  cnew_weight 1 point = 3 /\ cnew_weight 1 big = 2 /\ cgrain 1 big = 3 /\
  got (c_deser big [1]%N) = Some 4 /\
  got (c_deser big [1; 2; 3; 0; 0; 0]%N) = Some 13 /\
  got (c_deser big [1; 10; 3; 65; 66; 67]%N) = Some 7 /\
  (let x := c_replay (CList point) (CVList []) [2; 8; 8; 2; 8; 8]%N in (cweight 1 (fst x), snd x)) = (1, Panic) /\
  (let x := c_replay (CList point) (CVList []) [1; 8; 5; 8; 10; 2; 0; 7]%N in (cweight 1 (fst x), snd x)) = (7, Ok tt) /\
  c_read_request [3; 1; 2; 3; 4]%N = Some 3%Z /\ c_nested [3; 1; 2; 3; 4]%N = Ok ([1; 2; 3], [4])%N /\
  c_read_request [255; 255; 255; 255; 7; 1]%N = None /\ c_nested [255; 255; 255; 255; 7; 1]%N = Panic /\
  c_read_request [255; 255; 255; 255; 15; 1]%N = Some (-1)%Z /\ c_nested [255; 255; 255; 255; 15; 1]%N = Panic.
Proof. vm_compute. repeat split. Qed.
