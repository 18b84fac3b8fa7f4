(** C98: C# clients that go on after an exception, and kinds of entries they do not know. *)
From Verif Require Import Base Varint WireFmt Utf8 Types Ser Spec De Log State StateSpec Coll Pos CsPos ValInd VarintProofs WireProofs SerProofs
  TypeProofs EqProofs DeProofs RoundTrip MergeProofs NormProofs LogProofs TreeProofs CohProofs HandleProofs OpProofs ExecProofs Examples
  CSharp CSharpProofs CSharpSim CSharpSafe PropCSharp PosProofs.

Definition frame (body : bytes) : bytes := leb128 (lenN body) ++ body.

(** What becomes of the state and how often there is an exception when a client gets these frames, one by one, and goes on. *)
Fixpoint each (c : cty) (bodies : list bytes) (w : cval) : option (cval * nat) :=
  match bodies with
  | [] => Some (w, O)
  | b :: bodies' =>
      match (do (x, _) <- c_deser cEntry b; do e <- c_entry x; c_handle c e w) with
      | Ok w' => each c bodies' w'
      | Panic => match each c bodies' w with Some (w', n) => Some (w', S n) | None => None end
      | _ => None
      end
  end.

Lemma c_step_consuming c : consuming (c_replay_step c).
Proof.
  intros w bs w' rest E. unfold c_replay_step in E. pose proof (c_nested_oks bs) as N. destruct (c_nested bs) as [[sub r]| | |]; cbn [bind] in E; try discriminate E.
  destruct N as [_ N]. cbn [snd] in N. unfold shorter in N. destruct (c_deser cEntry sub) as [[x q]| | |]; cbn [bind] in E; try discriminate E.
  destruct (c_entry x); cbn [bind] in E; try discriminate E. destruct (c_handle c a w); cbn [bind try] in E; try discriminate E. injection E as <- <-. exact N.
Qed.

Lemma frame_nonempty b rest : frame b ++ rest <> [].
Proof. unfold frame. pose proof (leb128_nonempty (lenN b)). destruct (leb128 _); [congruence|discriminate]. Qed.

Lemma framed_step c b rest w : lenN b < 2 ^ 31 ->
  c_replay_step c w (frame b ++ rest) = match (do (x, _) <- c_deser cEntry b; do e <- c_entry x; c_handle c e w) with
    Ok w' => (w', Ok rest) | Err e => (w, Err e) | Panic => (w, Panic) | NoFuel => (w, NoFuel) end.
Proof.
  intros L. unfold c_replay_step, frame. rewrite <- app_assoc, c_nested_spec by exact L. cbn [bind]. destruct (c_deser cEntry b) as [[x q]| | |]; cbn [bind try]; try reflexivity.
  destruct (c_entry x) as [e| | |]; cbn [bind try]; try reflexivity. now destruct (c_handle c e w).
Qed.

Lemma framed_left b rest : lenN b < 2 ^ 31 -> c_nestedL (frame b ++ rest) = rest.
Proof.
  intros L. unfold c_nestedL, frame. rewrite <- app_assoc. assert (L' := L). change (2 ^ 31) with 2147483648 in L'.
  rewrite c_unsigned_leb by (change (2 ^ 64) with 18446744073709551616; lia).
  cbv zeta. rewrite N.mod_small by (change (2 ^ 32) with 4294967296; lia). change (2 ^ 31) with 2147483648.
  destruct (2147483648 <=? lenN b) eqn:A; [lia|]. destruct (lenN (b ++ rest) <? lenN b) eqn:B; [rewrite lenN_app in B; lia|]. cbn [orb]. now rewrite splitN_app.
Qed.

Lemma c_replay_run c w bs : bs <> [] -> c_replay c w bs = match c_replay_step c w bs with
    (w', Ok rest) => c_replay c w' rest | (w', Err e) => (w', Err e) | (w', Panic) => (w', Panic) | (w', NoFuel) => (w', NoFuel) end.
Proof.
  intros N. unfold c_replay at 1. rewrite run_step; [|apply c_step_consuming|exact N]. destruct (c_replay_step c w bs) as [w' [rest| | |]]; cbn [try bind]; reflexivity.
Qed.

(** Frames with anything in them: every one that holds an entry that can be applied is, the others are passed over with one
    exception each, and an exception changes nothing. *)
Theorem c98_frames : forall c bodies n w, Forall (fun b => lenN b < 2 ^ 31) bodies -> (length bodies < n)%nat ->
  c_keep_on n c w (concat (map frame bodies)) = each c bodies w.
Proof.
  intros c bodies n w F. revert n w. induction F as [|b bodies L F IH]; intros n w Ln.
  - destruct n as [|n]; [lia|]. reflexivity.
  - cbn [length] in Ln. destruct n as [|n]; [lia|]. cbn [map concat each c_keep_on]. unfold c_replayL.
    rewrite c_replay_run, runL_step; [|apply c_step_consuming|apply frame_nonempty|apply frame_nonempty]. rewrite framed_step, framed_left by exact L.
    destruct (do (x, _) <- c_deser cEntry b; do e <- c_entry x; c_handle c e w) as [w'|e| |]; try reflexivity.
    + rewrite <- (IH (S n) w' ltac:(lia)). cbn [c_keep_on]. reflexivity.
    + now rewrite (IH n w ltac:(lia)).
Qed.
Print Assumptions c98_frames.

(** So for a log. *)
Fixpoint c_all_tried (c : cty) (es : list entry) (w : cval) : option (cval * nat) :=
  match es with
  | [] => Some (w, O)
  | e :: es' =>
      match c_handle c e w with
      | Ok w' => c_all_tried c es' w'
      | Panic => match c_all_tried c es' w with Some (w', n) => Some (w', S n) | None => None end
      | _ => None
      end
  end.

Theorem c98_log : forall c es n w, Forall (fun e => entry_ok e /\ lenN (enc (entry_val e)) < 2 ^ 31) es -> (length es < n)%nat ->
  c_keep_on n c w (concat (map entry_wire es)) = c_all_tried c es w.
Proof.
  intros c es n w F Ln. assert (X : map entry_wire es = map frame (map (fun e => enc (entry_val e)) es)) by (rewrite map_map; reflexivity).
  rewrite X, c98_frames; [|clear - F; induction F as [|? ? [_ L] _ IH]; constructor; assumption|now rewrite map_length].
  clear X Ln. revert w. induction F as [|e es [Oe L] _ IH]; intros w; [reflexivity|]. cbn [map each c_all_tried].
  destruct (c_read_entry e Oe L) as (x & -> & E). cbn [bind]. rewrite E. cbn [bind]. destruct (c_handle c e w); try reflexivity; rewrite ?IH; reflexivity.
Qed.
Print Assumptions c98_log.

Lemma varint_panics bs : forall off v, c_varint bs off v = Panic \/ exists n rest, c_varint bs off v = Ok (n, rest) /\ (length rest < length bs)%nat.
Proof.
  induction bs as [|b bs IH]; intros off v; [now left|]. cbn [c_varint length]. destruct (N.land b 128 =? 0); [right; do 2 eexists; split; [reflexivity|lia]|].
  destruct (IH (off + 7) (N.lor v (N.shiftl (N.land b 127) off mod 2 ^ 64))) as [E|(n & rest & E & L)];
    match goal with |- context [c_varint bs ?o ?x] => destruct (IH o x) as [E'|(n' & rest' & E' & L')] end; rewrite E'; eauto; right; do 2 eexists; (split; [reflexivity|lia]).
Qed.
Lemma nestedL_shorter bs : bs <> [] -> (length (c_nestedL bs) < length bs)%nat.
Proof.
  intros N. unfold c_nestedL, c_unsigned. assert (0 < length bs)%nat by (destruct bs; [congruence|cbn; lia]). destruct (varint_panics bs 0 0) as [->|(n & rest & -> & L)]; [cbn; lia|].
  cbv zeta. destruct (_ || _); [exact L|]. destruct (splitN _ rest) as [a b] eqn:E. apply splitN_concat in E. subst rest. rewrite app_length in L. cbn [snd]. lia.
Qed.

(** Whatever arrives, going on comes to an end, after at most one exception for every byte, and the object is one of its class. *)
Theorem c98_ends : forall t c w bs n, ty_ok t = true -> state_ty t = true -> prim_under t = false -> cls t c = true -> cwt c w = true -> (length bs < n)%nat ->
  exists w' k, c_keep_on n c w bs = Some (w', k) /\ cwt c w' = true /\ (k <= length bs)%nat.
Proof.
  intros t c w bs n O S P C. pose proof (cls_cgen t c O C) as G. pose proof (cls_state t c S C P) as St. clear O S P C. revert w bs.
  assert (R : forall bs w, cwt c w = true -> exists w' o, c_replay c w bs = (w', o) /\ cwt c w' = true /\
    (o = Ok tt \/ (o = Panic /\ bs <> [] /\ (length (c_replayL c w bs) < length bs)%nat))).
  { intros bs. remember (length bs) as k eqn:K. revert bs K. induction (lt_wf k) as [k _ IH]; intros bs -> w W.
    destruct bs as [|b0 bs0] eqn:B; [exists w, (Ok tt); split; [reflexivity|auto]|]. rewrite <- B in *. assert (N : bs <> []) by (rewrite B; discriminate). clear B b0 bs0.
    rewrite c_replay_run by exact N. unfold c_replayL. rewrite runL_step; [|apply c_step_consuming|exact N]. pose proof (c_step_consuming c w bs) as Co.
    rewrite c_step_next in *. pose proof (c_next_oks bs) as Nx. destruct (c_next bs) as [[e rest]| | |] eqn:En; cbn [oks] in Nx; try contradiction.
    2:{ cbn [bind try]. exists w, Panic. split; [reflexivity|]. split; [exact W|]. right. split; [reflexivity|]. split; [exact N|]. apply nestedL_shorter, N. }
    destruct Nx as [Pa Sh]. cbn [fst snd] in Pa, Sh. cbn [bind]. cbn [bind] in Co. pose proof (c_handle_oks c e w G St W Pa) as H.
    destruct (c_handle c e w) as [w1| | |] eqn:Eh; cbn [oks] in H; try contradiction; cbn [bind try].
    - unfold shorter in Sh. destruct (IH (length rest) Sh rest eq_refl w1 H) as (w' & o & E & W' & Q). exists w', o. split; [exact E|]. split; [exact W'|].
      destruct Q as [Q|(Q & Q1 & Q2)]; [now left|right]. split; [exact Q|]. split; [exact N|]. unfold c_replayL in Q2. lia.
    - exists w, Panic. split; [reflexivity|]. split; [exact W|]. right. split; [reflexivity|]. split; [exact N|]. apply nestedL_shorter, N. }
  induction n as [|n IH]; intros w bs W L; [lia|]. cbn [c_keep_on]. destruct (R bs w W) as (w1 & o & -> & W1 & [->|(-> & N & Sh)]).
  - exists w1, O. split; [reflexivity|]. split; [exact W1|lia].
  - destruct (IH w1 (c_replayL c w bs) W1 ltac:(lia)) as (w' & k & -> & W' & K). exists w', (S k). split; [reflexivity|]. split; [exact W'|lia].
Qed.
Print Assumptions c98_ends.

(** A frame that is cut off: its size is gone, and what there is of it is taken for entries by the next call.  So there, unlike
    in [c98_frames], what is in the frame matters. *)
Theorem c98_cut : forall c w n part, n < 2 ^ 31 -> lenN part < n ->
  c_replay c w (leb128 n ++ part) = (w, Panic) /\ c_replayL c w (leb128 n ++ part) = part.
Proof.
  intros c w n part Ln Lp. change (2 ^ 31) with 2147483648 in Ln.
  assert (Ne : leb128 n ++ part <> []) by (pose proof (leb128_nonempty n); destruct (leb128 n); [congruence|discriminate]).
  assert (U : c_unsigned (leb128 n ++ part) = Ok (n, part)) by (apply c_unsigned_leb; change (2 ^ 64) with 18446744073709551616; lia).
  assert (Md : n mod 2 ^ 32 = n) by (apply N.mod_small; change (2 ^ 32) with 4294967296; lia).
  assert (B : (2 ^ 31 <=? n) || (lenN part <? n) = true) by (destruct (lenN part <? n) eqn:Q; [apply orb_true_r|lia]).
  assert (St : c_replay_step c w (leb128 n ++ part) = (w, Panic)) by (unfold c_replay_step, c_nested; rewrite U; cbn [bind]; cbv zeta; rewrite Md, B; reflexivity).
  split.
  - rewrite c_replay_run by exact Ne. now rewrite St.
  - unfold c_replayL. rewrite runL_step; [|apply c_step_consuming|exact Ne]. rewrite St. unfold c_nestedL. rewrite U. cbv zeta. now rewrite Md, B.
Qed.
Print Assumptions c98_cut.

(** An entry of a kind that is not known.  Rust refuses it.  A C# client takes it for an update of everything to what a fresh object
    holds, without an exception, unless its root is an enum. *)
Theorem c98_unknown_kind : forall kind any, kind < 2 ^ 32 -> ~ In kind [0; 8; 9; 12] -> let body := leb128 kind ++ any in lenN body < 2 ^ 31 ->
  (forall m t v rest, is_root v = Ok true -> replay m t v (frame body ++ rest) = (v, Err InvalidData) /\ replayL m t v (frame body ++ rest) = any ++ rest) /\
  (forall c w fresh rest, c_new c = Ok fresh ->
     match c with
     | CStruct _ | CList _ | CMap _ => c_replay c w (frame body ++ rest) = c_replay c fresh rest
     | CEnum _ => c_replay c w (frame body ++ rest) = (w, Panic)
     | _ => True
     end).
Proof.
  intros kind any K Ni body L. assert (L' := L). change (2 ^ 31) with 2147483648 in L'. change (2 ^ 32) with 4294967296 in K. split.
  - intros m t v rest R. unfold replay, replayL. rewrite R. rewrite run_step, runL_step; [|apply replay_step_consuming|apply frame_nonempty|apply replay_step_consuming|apply frame_nonempty].
    assert (Rn : rd_nested m (frame body ++ rest) = Ok (body, rest)) by (unfold frame; rewrite <- app_assoc; apply rd_nested_spec; change (2 ^ 64) with 18446744073709551616; lia).
    assert (U : uv_deserialize m 32 body = Ok (kind, any)) by (apply uv_deserialize_leb; [reflexivity|change (2 ^ 32) with 4294967296; lia]).
    assert (Fv : forall f0 f8 f9 f12 : list (finfo * ty), find_variant [((0, true), f0); ((8, true), f8); ((9, true), f9); ((12, true), f12)] kind = None).
    { intros. unfold find_variant, find. cbn [fst].
      repeat match goal with |- context [?a =? ?b] => destruct (N.eqb_spec a b) as [Q|_]; [exfalso; apply Ni; subst; cbn; tauto|] end. reflexivity. }
    assert (Mg : merge m tEntry (dflt tEntry rt_default) body = (dflt tEntry rt_default, Err InvalidData)).
    { unfold tEntry at 1. change (dflt tEntry rt_default) with (variant_ctor false ((0, true), [(fpl 0, TVec (TInt U32)); (fpl 1, TBytes)]) rt_default). cbn [variant_ctor].
      rewrite merge_enum, U. cbn [try]. now rewrite Fv. }
    assert (Ml : mergeL m tEntry (dflt tEntry rt_default) body = any).
    { unfold tEntry at 1. change (dflt tEntry rt_default) with (variant_ctor false ((0, true), [(fpl 0, TVec (TInt U32)); (fpl 1, TBytes)]) rt_default). cbn [variant_ctor].
      rewrite mergeL_enum, U. now rewrite Fv. }
    assert (Re : read_entry m (frame body ++ rest) = Err InvalidData).
    { unfold read_entry, de_nested, merge_nested. cbn [wty tEntry wtype_eqb negb]. rewrite Rn. cbn [try]. fold tEntry. rewrite Mg. reflexivity. }
    unfold replay_step, replay_stepL, read_entryL, merge_nestedL. rewrite Re. cbn [try wty tEntry wtype_eqb negb]. rewrite Rn. fold tEntry. rewrite Ml. split; reflexivity.
  - intros c w fresh rest N.
    assert (U : c_int U32 body = Ok (Z.of_N kind, any)).
    { unfold c_int, body. rewrite c_unsigned_leb by (change (2 ^ 64) with 18446744073709551616; lia). cbn [bind isigned ibits]. rewrite N.mod_small by (change (2 ^ 32) with 4294967296; lia). reflexivity. }
    assert (D : (do (x, _) <- c_deser cEntry body; do e <- c_entry x; c_handle c e w) = c_handle c (EUpdate [] []) w).
    { unfold cEntry. cbn [c_deser c_new c_constructible andb negb]. cbn [bind]. rewrite U. cbn [bind]. rewrite N2Z.id.
      repeat match goal with |- context [?a =? kind] => destruct (N.eqb_spec a kind) as [Q|_]; [exfalso; apply Ni; subst; cbn; tauto|] end. reflexivity. }
    assert (X : forall w', c_handle c (EUpdate [] []) w = Ok w' -> c_replay c w (frame body ++ rest) = c_replay c w' rest).
    { intros w' H. rewrite c_replay_run by apply frame_nonempty. rewrite framed_step by exact L. now rewrite D, H. }
    destruct c as [| | | | | |t|t|fs|vs]; try exact I.
    + apply X. cbn in N. injection N as <-. reflexivity.
    + apply X. cbn in N. injection N as <-. reflexivity.
    + apply X. change (c_new (CStruct fs)) with (do xs <- c_new_fields fs; Ok (CVStruct xs)) in N. cbn [c_handle].
      change (c_deser (CStruct fs) []) with (do xs <- c_new_fields fs; do xs <- crun (c_struct_step (c_readers fs)) xs []; Ok (CVStruct xs, [] : bytes)).
      destruct (c_new_fields fs) as [xs| | |]; cbn [bind] in N; try discriminate N. injection N as <-. reflexivity.
    + rewrite c_replay_run by apply frame_nonempty. rewrite framed_step by exact L. rewrite D. cbn [c_handle c_deser]. rewrite N. reflexivity.
Qed.
Print Assumptions c98_unknown_kind.

(** A replica and a client that both go on after errors come apart: what fails is half done in Rust and not done in C#. *)
Theorem c98_apart_refuted :
  ~ (forall m t c v w es n v' w' k k', ty_ok t = true -> cls t c = true -> wt t v = true -> looks v w = true -> is_root v = Ok true ->
     Forall (fun e => entry_ok e /\ lenN (enc (entry_val e)) < 2 ^ 31) es ->
     keep_on n m t v (concat (map entry_wire es)) = Some (v', k) -> c_keep_on n c w (concat (map entry_wire es)) = Some (w', k') -> looks v' w' = true).
Proof.
  intros H. set (pt := fun x y z => CVStruct [(0, CVInt x); (1, CVInt y); (2, CVInt z)]).
  specialize (H Release (TList tPoint) (CList (CStruct [(0, (false, CInt I32)); (1, (false, CInt I32)); (2, (false, CInt I32))]))
    (VList ex_rt [vPoint (nested ex_rt 0) 1 2 3]) (CVList [pt 1%Z 2%Z 3%Z]) [EUpdate [0] [0; 14; 3]] 3%nat
    (VList ex_rt [vPoint (nested ex_rt 0) 7 0 0]) (CVList [pt 1%Z 2%Z 3%Z]) 1%nat 1%nat eq_refl eq_refl eq_refl eq_refl eq_refl).
  assert (F : Forall (fun e => entry_ok e /\ lenN (enc (entry_val e)) < 2 ^ 31) [EUpdate [0] [0; 14; 3]]).
  { constructor; [|constructor]. split; [split; [|split]|reflexivity].
    - constructor; [reflexivity|constructor].
    - intros k Q. discriminate Q.
    - cbn [entry_bytes]. repeat (constructor; [reflexivity|]). constructor. }
  specialize (H F eq_refl eq_refl). vm_compute in H. discriminate H.
Qed.
Print Assumptions c98_apart_refuted.

(** An entry of a later version (kind 5) between two that push; a pop from an empty list, then a push; a cut frame. *)
Example c98_case :
  let c := CList (CInt U8) in let push n := entry_wire (EListPush [] [n]) in
  c_keep_on 9 c (CVList []) (push 1 ++ frame [5; 1; 2; 3] ++ push 2) = Some (CVList [CVInt 2], 0%nat) /\
  keep_on 9 Release (TList (TInt U8)) (VList ex_rt []) (push 1 ++ frame [5] ++ push 2) = Some (VList ex_rt [VInt U8 1; VInt U8 2], 1%nat) /\
  c_keep_on 9 c (CVList []) (entry_wire (EListPop []) ++ push 4) = Some (CVList [CVInt 4], 1%nat) /\
  c_keep_on 9 c (CVList []) (9 :: push 4) = Some (CVList [CVInt 4], 1%nat) /\
  c_keep_on 9 c (CVList []) [200; 1] = Some (CVList [], 1%nat) /\
  c_replay (CEnum [(0, [])]) (CVEnum 0 []) (frame [5]) = (CVEnum 0 [], Panic).
Proof. vm_compute. repeat split. Qed.
