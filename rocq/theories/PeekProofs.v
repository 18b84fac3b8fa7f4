(** Decoding with look-ahead is decoding. *)
From Verif Require Import Base Varint WireFmt Utf8 Types Ser Spec De ValInd VarintProofs WireProofs
  SerProofs TypeProofs EqProofs DeProofs RoundTrip Peek.

Definition opt1 (o : option N) : bytes := match o with Some b => [b] | None => [] end.

(** The bytes a source, a reader still has to give. *)
Fixpoint src_bytes (s : source) : bytes :=
  match s with
  | Base bs => bs
  | Lim n kept s => fst (splitN n (opt1 kept ++ src_bytes s))
  end.
Definition content (r : reader) : bytes := opt1 (fst r) ++ src_bytes (snd r).

(** Nothing kept below the top. *)
Fixpoint clean (s : source) : Prop :=
  match s with Base _ => True | Lim _ kept s => kept = None /\ clean s end.

(** [x] is read from [s], at every level. *)
Inductive adv : source -> bytes -> source -> Prop :=
| adv_base x bs : adv (Base (x ++ bs)) x (Base bs)
| adv_lim n s x s' : adv s x s' -> lenN x <= n -> adv (Lim n None s) x (Lim (n - lenN x) None s').

Lemma splitN_fst_app {A} (x y : list A) : forall n, lenN x <= n ->
  fst (splitN n (x ++ y)) = x ++ fst (splitN (n - lenN x) y) /\ snd (splitN n (x ++ y)) = snd (splitN (n - lenN x) y).
Proof.
  induction x as [|b x IH]; intros n L; cbn [app].
  - unfold lenN. cbn. now rewrite N.sub_0_r.
  - unfold lenN in *. cbn [length] in *. cbn [splitN]. destruct (n =? 0) eqn:E; [lia|].
    destruct (IH (n - 1)) as [E1 E2]; [lia|]. destruct (splitN (n - 1) (x ++ y)) as [p q].
    cbn [fst snd] in *. replace (n - N.of_nat (S (length x))) with (n - 1 - N.of_nat (length x)) by lia.
    now rewrite E1, E2.
Qed.

Lemma splitN_len {A} (l : list A) : forall n, lenN (fst (splitN n l)) <= n.
Proof.
  induction l as [|b l IH]; intros n; cbn [splitN]; [unfold lenN; cbn; lia|].
  destruct (n =? 0) eqn:E; [unfold lenN; cbn; lia|]. specialize (IH (n - 1)).
  destruct (splitN (n - 1) l). cbn [fst] in *. unfold lenN in *. cbn [length]. lia.
Qed.

Lemma adv_bytes s x s' : adv s x s' -> src_bytes s = x ++ src_bytes s'.
Proof.
  induction 1 as [x bs|n s x s' H IH L]; cbn [src_bytes opt1 app]; [reflexivity|].
  rewrite IH. now apply splitN_fst_app.
Qed.

Lemma adv_refl s : clean s -> adv s [] s.
Proof.
  induction s as [bs|n k s IH]; intros C; [apply (adv_base [] bs)|].
  destruct C as [-> C]. replace (Lim n None s) with (Lim (n - lenN (@nil N)) None s) at 2.
  - constructor; [now apply IH|unfold lenN; cbn; lia].
  - unfold lenN. cbn. now rewrite N.sub_0_r.
Qed.

Lemma adv_trans s x s' : adv s x s' -> forall y s'', adv s' y s'' -> adv s (x ++ y) s''.
Proof.
  induction 1 as [x bs|n s x s' H IH L]; intros y s'' H'; inversion H'; subst.
  - rewrite app_assoc. constructor.
  - replace (n - lenN x - lenN y) with (n - lenN (x ++ y)) by (rewrite lenN_app; lia).
    constructor; [now apply IH|rewrite lenN_app; lia].
Qed.

Lemma adv_clean s x s' : adv s x s' -> clean s /\ clean s'.
Proof. induction 1 as [|n s x s' H [IH1 IH2] L]; cbn; auto. Qed.

Lemma src_read_spec s : clean s ->
  match src_bytes s with
  | [] => src_read s = None
  | b :: _ => exists s', src_read s = Some (b, s') /\ adv s [b] s'
  end.
Proof.
  induction s as [bs|n k s IH]; intros C; cbn [src_bytes src_read].
  - destruct bs as [|b bs]; [reflexivity|]. exists (Base bs). split; [reflexivity|apply (adv_base [b] bs)].
  - destruct C as [-> C]. cbn [opt1 app]. specialize (IH C).
    destruct (src_bytes s) as [|b bs]; cbn [splitN].
    + cbn [fst]. rewrite IH. now destruct (n =? 0).
    + destruct (n =? 0) eqn:E; [reflexivity|]. destruct (splitN (n - 1) bs) as [p q]. cbn [fst].
      destruct IH as [s' [-> Ha]]. eexists. split; [reflexivity|].
      change (n - 1) with (n - lenN [b]). constructor; [exact Ha|unfold lenN; cbn; lia].
Qed.

(** [r'] is [r] after [x]. *)
Definition radv (r : reader) (x : bytes) (r' : reader) : Prop :=
  exists y, adv (snd r) y (snd r') /\ opt1 (fst r) ++ y = x ++ opt1 (fst r').

Lemma radv_content r x r' : radv r x r' -> content r = x ++ content r'.
Proof.
  intros [y [H E]]. unfold content. rewrite (adv_bytes _ _ _ H), app_assoc, E. now rewrite <- app_assoc.
Qed.
Lemma radv_refl r : clean (snd r) -> radv r [] r.
Proof. intros C. exists []. split; [now apply adv_refl|]. now rewrite app_nil_r. Qed.
Lemma radv_trans r x r' y r'' : radv r x r' -> radv r' y r'' -> radv r (x ++ y) r''.
Proof.
  intros [x1 [H1 E1]] [y1 [H2 E2]]. exists (x1 ++ y1). split; [eapply adv_trans; eauto|].
  rewrite app_assoc, E1, <- app_assoc, E2, app_assoc. reflexivity.
Qed.
Lemma radv_clean r x r' : radv r x r' -> clean (snd r').
Proof. intros [y [H _]]. now apply adv_clean in H. Qed.

Lemma rd_read_spec r : clean (snd r) ->
  match content r with
  | [] => rd_read r = None /\ fst r = None
  | b :: bs => exists r', rd_read r = Some (b, r') /\ radv r [b] r' /\ content r' = bs /\ fst r' = None
  end.
Proof.
  intros C. destruct r as [[b|] s]; unfold content; cbn [fst snd opt1 app rd_read] in *.
  - exists (None, s). split; [reflexivity|]. split; [|split; reflexivity]. exists []. split; [now apply adv_refl|reflexivity].
  - pose proof (src_read_spec s C) as H. destruct (src_bytes s) as [|b bs] eqn:E; [now rewrite H|].
    destruct H as [s' [-> H]]. exists (None, s'). split; [reflexivity|].
    split; [exists [b]; split; [exact H|reflexivity]|]. split; [|reflexivity].
    pose proof (adv_bytes _ _ _ H) as E'. rewrite E in E'. cbn in E'. cbn [content fst snd opt1 app]. congruence.
Qed.

Lemma rd_eof_spec r : clean (snd r) ->
  match content r with
  | [] => rd_eofE r = (true, r)
  | _ :: _ => exists r', rd_eofE r = (false, r') /\ radv r [] r'
  end.
Proof.
  intros C. destruct r as [[b|] s]; unfold content; cbn [fst snd opt1 app rd_eofE] in *.
  - eexists. split; [reflexivity|]. now apply radv_refl.
  - pose proof (src_read_spec s C) as H. destruct (src_bytes s) as [|b bs] eqn:E; [now rewrite H|].
    destruct H as [s' [-> H]]. exists (Some b, s'). split; [reflexivity|]. exists [b]. split; [exact H|reflexivity].
Qed.

Lemma src_len_spec s : (length (src_bytes s) <= src_len s)%nat.
Proof.
  induction s as [bs|n k s IH]; cbn [src_bytes src_len]; [lia|].
  pose proof (splitN_concat (opt1 k ++ src_bytes s) n) as H.
  destruct (splitN n (opt1 k ++ src_bytes s)) as [p q]. specialize (H p q eq_refl). cbn [fst].
  apply (f_equal (@length N)) in H. rewrite !app_length in H. destruct k; cbn in *; lia.
Qed.
Lemma rd_fuel_spec r : (length (content r) < rd_fuel r)%nat.
Proof.
  unfold content, rd_fuel. rewrite app_length. pose proof (src_len_spec (snd r)). destruct (fst r); cbn; lia.
Qed.

(** ** Outcomes that agree *)

(** Without a reader inside. *)
Definition simA {A} (r : reader) (o : res (A * bytes)) (oE : res (A * reader)) : Prop :=
  match o, oE with
  | Ok (x, rest), Ok (x', r') => x = x' /\ content r' = rest /\ exists y, radv r y r'
  | Err e, Err e' => e = e'
  | Panic, Panic => True
  | NoFuel, NoFuel => True
  | _, _ => False
  end.
Definition sim (r : reader) (o : res bytes) (oE : res reader) : Prop :=
  match o, oE with
  | Ok rest, Ok r' => content r' = rest /\ exists y, radv r y r'
  | Err e, Err e' => e = e'
  | Panic, Panic => True
  | NoFuel, NoFuel => True
  | _, _ => False
  end.
Definition simS {S} (r : reader) (p : S * res bytes) (q : S * res reader) : Prop :=
  fst p = fst q /\ sim r (snd p) (snd q).

Lemma simA_cases {A} r (o : res (A * bytes)) oE : simA r o oE ->
  (exists x r' y, o = Ok (x, content r') /\ oE = Ok (x, r') /\ radv r y r') \/
  (exists e, o = Err e /\ oE = Err e) \/ (o = Panic /\ oE = Panic) \/ (o = NoFuel /\ oE = NoFuel).
Proof.
  destruct o as [[x rest]|e| |], oE as [[x' r']|e'| |]; cbn; try contradiction; auto.
  - intros [-> [<- [y H]]]. left. eauto 6.
  - intros ->. right. left. eauto.
Qed.
Lemma sim_cases r o oE : sim r o oE ->
  (exists r' y, o = Ok (content r') /\ oE = Ok r' /\ radv r y r') \/
  (exists e, o = Err e /\ oE = Err e) \/ (o = Panic /\ oE = Panic) \/ (o = NoFuel /\ oE = NoFuel).
Proof.
  destruct o as [rest|e| |], oE as [r'|e'| |]; cbn; try contradiction; auto.
  - intros [<- [y H]]. left. eauto 6.
  - intros ->. right. left. eauto.
Qed.

Ltac simcase H := 
  let r' := fresh "r" in let y := fresh "y" in let e := fresh "e" in let x := fresh "x" in
  let A := fresh "A" in
  first [ destruct (simA_cases _ _ _ H) as [(x & r' & y & -> & -> & A)|[(e & -> & ->)|[[-> ->]|[-> ->]]]]
        | destruct (sim_cases _ _ _ H) as [(r' & y & -> & -> & A)|[(e & -> & ->)|[[-> ->]|[-> ->]]]] ].

Lemma sim_adv r y r' o oE : radv r y r' -> sim r' o oE -> sim r o oE.
Proof.
  intros H. destruct o, oE; cbn; try contradiction; auto. intros [E [z Hz]]. split; [exact E|].
  eexists. eapply radv_trans; eauto.
Qed.
Lemma simA_adv {A} r y r' (o : res (A * bytes)) oE : radv r y r' -> simA r' o oE -> simA r o oE.
Proof.
  intros H. destruct o as [[]| | |], oE as [[]| | |]; cbn; try contradiction; auto. intros [E0 [E [z Hz]]].
  split; [exact E0|]. split; [exact E|]. eexists. eapply radv_trans; eauto.
Qed.
Lemma simS_adv {S} r y r' (p : S * res bytes) q : radv r y r' -> simS r' p q -> simS r p q.
Proof. intros H [E1 E2]. split; [exact E1|]. eapply sim_adv; eauto. Qed.

(** ** The parts of the decoder *)

Lemma uv_loop_sim m bits : forall f r value off, clean (snd r) -> (length (content r) < f)%nat ->
  match uv_de_loop m bits value off (content r), uv_de_loopE f m bits value off r with
  | Ok (x, rest), Ok (x', r') => x = x' /\ content r' = rest /\ fst r' = None /\ exists y, radv r y r'
  | Err e, Err e' => e = e'
  | Panic, Panic => True
  | _, _ => False
  end.
Proof.
  induction f as [|f IH]; intros r value off C L; [lia|].
  cbn [uv_de_loopE]. pose proof (rd_read_spec r C) as H.
  destruct (content r) as [|b bs]; cbn [uv_de_loop].
  - destruct H as [-> _]. reflexivity.
  - destruct H as [r' [-> [A [Ec Ek]]]].
    assert (G : forall sh, 
      match (if N.land b 128 =? 0 then Ok (N.lor value (N.shiftl (N.land b 127) sh mod 2 ^ bits), bs)
             else uv_de_loop m bits (N.lor value (N.shiftl (N.land b 127) sh mod 2 ^ bits)) (off + 7) bs),
            (if N.land b 128 =? 0 then Ok (N.lor value (N.shiftl (N.land b 127) sh mod 2 ^ bits), r')
             else uv_de_loopE f m bits (N.lor value (N.shiftl (N.land b 127) sh mod 2 ^ bits)) (off + 7) r') with
      | Ok (x, rest), Ok (x', r') => x = x' /\ content r' = rest /\ fst r' = None /\ exists y, radv r y r'
      | Err e, Err e' => e = e'
      | Panic, Panic => True
      | _, _ => False
      end).
    { intros sh. destruct (N.land b 128 =? 0); [split; [reflexivity|]; split; [exact Ec|]; eauto|].
      set (value' := N.lor value (N.shiftl (N.land b 127) sh mod 2 ^ bits)).
      specialize (IH r' value' (off + 7) (radv_clean _ _ _ A)). rewrite Ec in IH.
      specialize (IH ltac:(cbn in L; lia)).
      destruct (uv_de_loop m bits value' (off + 7) bs) as [[x rest]|e| |];
        destruct (uv_de_loopE f m bits value' (off + 7) r') as [[x' r'']|e'| |]; auto.
      destruct IH as [E1 [E2 [E3 [y Hy]]]]. repeat (split; [assumption|]). eexists. eapply radv_trans; eauto. }
    destruct (off <? bits); [apply G|]. destruct m; [exact I|apply G].
Qed.

Lemma uv_sim m bits r : clean (snd r) ->
  simA r (uv_deserialize m bits (content r)) (uv_deserializeE m bits r) /\
  forall x r', uv_deserializeE m bits r = Ok (x, r') -> fst r' = None.
Proof.
  intros C. pose proof (uv_loop_sim m bits (rd_fuel r) r 0 0 C (rd_fuel_spec r)) as H.
  unfold uv_deserialize, uv_deserializeE.
  destruct (uv_de_loop m bits 0 0 (content r)) as [[x rest]|e| |], (uv_de_loopE (rd_fuel r) m bits 0 0 r) as [[x' r']|e'| |];
    cbn; try contradiction; (split; [|intros ? ? E; try discriminate E]); auto.
  - destruct H as [E1 [E2 [E3 Hy]]]. auto.
  - injection E as <- <-. apply H.
Qed.

Lemma int_sim m k r : clean (snd r) -> simA r (int_deserialize m k (content r)) (int_deserializeE m k r).
Proof.
  intros C. unfold int_deserialize, int_deserializeE. destruct (uv_sim m (ibits k) r C) as [H _].
  simcase H; cbn; eauto.
Qed.

Lemma bool_loop_sim : forall f r value, clean (snd r) -> (length (content r) < f)%nat ->
  simA r (bool_de_loop value (content r)) (bool_de_loopE f value r).
Proof.
  induction f as [|f IH]; intros r value C L; [lia|].
  cbn [bool_de_loopE]. pose proof (rd_read_spec r C) as H.
  destruct (content r) as [|b bs]; cbn [bool_de_loop].
  - destruct H as [-> _]. reflexivity.
  - destruct H as [r' [-> [A [Ec Ek]]]]. destruct (N.land b 128 =? 0).
    + cbn. eauto.
    + apply (simA_adv _ _ _ _ _ A). rewrite <- Ec. apply IH; [eapply radv_clean; eauto|]. rewrite Ec. cbn in L. lia.
Qed.

Lemma drain_sim : forall f r, clean (snd r) -> (length (content r) < f)%nat ->
  exists r', drainE f r = Ok (content r, r') /\ content r' = [] /\ radv r (content r) r'.
Proof.
  induction f as [|f IH]; intros r C L; [lia|].
  cbn [drainE]. pose proof (rd_read_spec r C) as H. destruct (content r) as [|b bs] eqn:E.
  - destruct H as [-> _]. exists r. split; [reflexivity|]. split; [exact E|now apply radv_refl].
  - destruct H as [r' [-> [A [Ec Ek]]]]. destruct (IH r' (radv_clean _ _ _ A)) as [r'' [E1 [E2 E3]]].
    { rewrite Ec. cbn in L. lia. }
    rewrite E1. cbn [bind]. rewrite Ec in *. exists r''. split; [reflexivity|]. split; [exact E2|].
    apply (radv_trans _ [b] _ bs _ A E3).
Qed.
Lemma to_end_sim r : clean (snd r) ->
  exists r', to_endE r = Ok (content r, r') /\ content r' = [] /\ radv r (content r) r'.
Proof. intros C. apply drain_sim; [exact C|apply rd_fuel_spec]. Qed.

Lemma skip_sim : forall f n r, clean (snd r) -> (length (content r) < f)%nat ->
  exists r' y, skipE f n r = Ok r' /\ content r' = snd (splitN n (content r)) /\ radv r y r'.
Proof.
  induction f as [|f IH]; intros n r C L; [lia|].
  cbn [skipE]. pose proof (rd_read_spec r C) as H. destruct (n =? 0) eqn:En.
  - exists r, []. split; [reflexivity|]. split; [|now apply radv_refl].
    destruct (content r); cbn [splitN]; [reflexivity|]. now rewrite En.
  - destruct (content r) as [|b bs] eqn:E.
    + destruct H as [-> _]. exists r, []. split; [reflexivity|]. split; [exact E|now apply radv_refl].
    + destruct H as [r' [-> [A [Ec Ek]]]]. destruct (IH (n - 1) r' (radv_clean _ _ _ A)) as [r'' [y [E1 [E2 E3]]]].
      { rewrite Ec. cbn in L. lia. }
      exists r'', ([b] ++ y). split; [exact E1|]. cbn [splitN]. rewrite En. rewrite Ec in E2.
      destruct (splitN (n - 1) bs). split; [exact E2|]. eapply radv_trans; eauto.
Qed.

Lemma skip_field_sim m w r : clean (snd r) -> sim r (rd_skip_field m w (content r)) (rd_skip_fieldE m w r).
Proof.
  intros C. destruct w; cbn [rd_skip_field rd_skip_fieldE].
  - destruct (uv_sim m 8 r C) as [H _]. simcase H; cbn; eauto.
  - destruct (uv_sim m 64 r C) as [H _]. simcase H; cbn [bind]; try (cbn; auto; fail).
    destruct (x <? 2 ^ 63); [|exact I].
    destruct (skip_sim (rd_fuel r0) x r0 (radv_clean _ _ _ A) (rd_fuel_spec r0)) as [r' [z [E1 [E2 E3]]]].
    rewrite E1. cbn. split; [exact E2|]. eexists. eapply radv_trans; eauto.
Qed.

Lemma tag_sim m r : clean (snd r) -> simA r (rd_tag m (content r)) (rd_tagE m r).
Proof.
  intros C. unfold rd_tag, rd_tagE. destruct (uv_sim m 32 r C) as [H _]. simcase H; cbn [bind]; try (cbn; auto; fail).
  destruct (parse_tag x) as [[fn w]|e| |]; cbn; eauto.
Qed.

(** ** Merging *)

Definition msim (mg : merger) (mgE : mergerE) : Prop := forall v r, clean (snd r) ->
  simS r (mg v (content r)) (mgE v r).

Lemma enter_content x r : fst r = None -> clean (snd r) -> 
  clean (snd (rd_enter x r)) /\ content (rd_enter x r) = fst (splitN x (content r)).
Proof. destruct r as [k s]. cbn. intros -> C. auto. Qed.

Lemma adv_lim_inv n s x s2 : adv (Lim n None s) x s2 ->
  exists s', s2 = Lim (n - lenN x) None s' /\ adv s x s' /\ lenN x <= n.
Proof. intros H. inversion H; subst. eauto. Qed.

Lemma leave_sim size r sub y : fst r = None -> clean (snd r) ->
  radv (rd_enter size r) y sub -> content sub = [] ->
  exists r' z, rd_leave r sub = Ok r' /\ content r' = snd (splitN size (content r)) /\ radv r z r'.
Proof.
  intros K C A E. pose proof (radv_content _ _ _ A) as Ey. rewrite E, app_nil_r in Ey.
  destruct A as [z [Ha Ez]]. cbn [rd_enter fst snd opt1 app] in Ha, Ez.
  assert (Ks : fst sub = None) by (destruct (fst sub) eqn:Eq; [unfold content in E; rewrite Eq in E; discriminate E|reflexivity]).
  rewrite Ks in Ez. cbn [opt1] in Ez. rewrite app_nil_r in Ez. subst z.
  destruct (adv_lim_inv _ _ _ _ Ha) as [s' [E2 [Hs Hl]]]. unfold rd_leave. rewrite E2. clear E2.
  exists (fst r, s'), y. split; [reflexivity|].
  assert (Er : content r = y ++ content (fst r, s')).
  { unfold content. rewrite K. cbn [opt1 app fst snd]. now apply adv_bytes. }
  split; [|exists y; split; [exact Hs|cbn [fst snd]; rewrite K; cbn; now rewrite app_nil_r]].
  destruct (splitN_fst_app y (content (fst r, s')) size Hl) as [E1 E2]. rewrite <- Er in E1, E2.
  rewrite E2.
  pose proof (enter_content size r K C) as [_ Ec]. rewrite Ey in Ec. rewrite E1 in Ec.
  rewrite <- (app_nil_r y) in Ec at 1. apply app_inv_head in Ec.
  destruct (splitN (size - lenN y) (content (fst r, s'))) as [p q] eqn:Es.
  cbn [fst snd] in *. apply splitN_concat in Es. subst p. exact Es.
Qed.

Lemma nested_sim m tw mg mgE w : msim mg mgE -> msuf tw mg ->
  forall v r, clean (snd r) -> simS r (merge_nested m tw mg w v (content r)) (merge_nestedE m tw mgE w v r).
Proof.
  intros Hm Hs v r C. unfold merge_nested, merge_nestedE. destruct (wtype_eqb w tw) eqn:Ew; cbn [negb].
  - destruct w; [now apply Hm|].
    assert (tw = Sized) by (destruct tw; [discriminate Ew|reflexivity]). subst tw.
    unfold rd_nested. destruct (uv_sim m 64 r C) as [H K]. revert K.
    simcase H; intros K; cbn [bind try tryE]; try (split; cbn; auto; fail).
    specialize (K _ _ eq_refl). pose proof (radv_clean _ _ _ A) as C0.
    destruct (enter_content x r0 K C0) as [C1 E1].
    destruct (splitN x (content r0)) as [sub after] eqn:Es. cbn [fst] in E1.
    pose proof (Hm v (rd_enter x r0) C1) as HE. rewrite E1 in HE.
    destruct (mg v sub) as [v1 o] eqn:Emg. destruct (mgE v (rd_enter x r0)) as [v2 oE].
    destruct HE as [Ev Ho]. cbn [fst snd] in Ev, Ho. subst v2.
    revert Emg. simcase Ho; intros Emg; cbn [bind]; try (split; cbn; auto; fail).
    assert (E0 : content r1 = []) by (now apply Hs in Emg).
    destruct (leave_sim x r0 r1 y0 K C0 A0 E0) as [r' [z [El [Ec Ha]]]].
    rewrite El. split; [reflexivity|]. cbn [snd sim]. rewrite E0. cbn [app]. rewrite Es in Ec. cbn [snd] in Ec.
    split; [exact Ec|]. eexists. eapply radv_trans; eauto.
  - split; [reflexivity|]. now apply skip_field_sim.
Qed.

Lemma de_nested_sim m tw mg mgE : msim mg mgE -> msuf tw mg ->
  forall d r, clean (snd r) -> simA r (de_nested m tw mg d (content r)) (de_nestedE m tw mgE d r).
Proof.
  intros Hm Hs d r C. unfold de_nested, de_nestedE.
  pose proof (nested_sim m tw mg mgE tw Hm Hs d r C) as H.
  destruct (merge_nested m tw mg tw d (content r)) as [v o], (merge_nestedE m tw mgE tw d r) as [v' oE].
  destruct H as [E H]. cbn [fst snd] in E, H. subst v'. simcase H; cbn; eauto.
Qed.

Definition stepsim {S} (step : S -> bytes -> S * res bytes) (stepE : S -> reader -> S * res reader) : Prop :=
  forall s r, clean (snd r) -> simS r (step s (content r)) (stepE s r).

Lemma loop_sim {S} (step : S -> bytes -> S * res bytes) stepE : stepsim step stepE ->
  forall f s r, clean (snd r) -> simS r (loop f step s (content r)) (loopE f stepE s r).
Proof.
  intros H. induction f as [|f IH]; intros s r C; cbn [loopE];
    pose proof (rd_eof_spec r C) as He; destruct (content r) as [|b bs] eqn:E; cbn [loop].
  - rewrite He. split; [reflexivity|]. split; [exact E|]. exists []. now apply radv_refl.
  - destruct He as [r' [-> A]]. split; reflexivity.
  - rewrite He. split; [reflexivity|]. split; [exact E|]. exists []. now apply radv_refl.
  - destruct He as [r' [-> A]]. 
    assert (Ec : content r' = b :: bs) by (apply radv_content in A; cbn in A; congruence).
    pose proof (H s r' (radv_clean _ _ _ A)) as Hs. rewrite Ec in Hs.
    apply (simS_adv _ _ _ _ _ A).
    destruct (step s (b :: bs)) as [s1 o], (stepE s r') as [s1' oE]. destruct Hs as [E1 Ho]. cbn [fst snd] in E1, Ho. subst s1'.
    simcase Ho; cbn [try tryE]; try (split; cbn; auto; fail).
    apply (simS_adv _ _ _ _ _ A0). apply IH. eapply radv_clean; eauto.
Qed.

Lemma run_sim {S} (step : S -> bytes -> S * res bytes) stepE : stepsim step stepE -> consuming step ->
  forall s r, clean (snd r) -> simS r (run step s (content r)) (runE stepE s r).
Proof.
  intros H Hc s r C. unfold run, runE. pose proof (rd_fuel_spec r) as L.
  rewrite (loop_fuel step Hc (length (content r)) (rd_fuel r) s (content r)) by lia.
  now apply loop_sim.
Qed.

(** ** Every type *)

Lemma opt_step_sim m tw mg mgE d : msim mg mgE -> msuf tw mg -> stepsim (opt_step m tw mg d) (opt_stepE m tw mgE d).
Proof.
  intros Hm Hs s r C. unfold opt_step, opt_stepE.
  pose proof (nested_sim m tw mg mgE tw Hm Hs (match s with Some x => x | None => d end) r C) as H.
  destruct (merge_nested _ _ _ _ _ _) as [x o], (merge_nestedE _ _ _ _ _ _) as [x' oE].
  destruct H as [E H]. cbn [fst snd] in E, H. subst x'. split; [reflexivity|exact H].
Qed.

Lemma vec_step_sim m tw mg mgE d : msim mg mgE -> msuf tw mg -> stepsim (vec_step m tw mg d) (vec_stepE m tw mgE d).
Proof.
  intros Hm Hs s r C. unfold vec_step, vec_stepE. pose proof (de_nested_sim m tw mg mgE Hm Hs d r C) as H.
  simcase H; cbn [try tryE]; split; cbn; eauto.
Qed.

Lemma hash_step_sim m kw kmg kmgE kd vw vmg vmgE vd : msim kmg kmgE -> msuf kw kmg -> msim vmg vmgE -> msuf vw vmg ->
  stepsim (hash_step m kw kmg kd vw vmg vd) (hash_stepE m kw kmgE kd vw vmgE vd).
Proof.
  intros Hm Hs Hm' Hs' s r C. unfold hash_step, hash_stepE. pose proof (de_nested_sim m kw kmg kmgE Hm Hs kd r C) as H.
  simcase H; cbn [try tryE]; try (split; cbn; auto; fail).
  apply (simS_adv _ _ _ _ _ A).
  pose proof (de_nested_sim m vw vmg vmgE Hm' Hs' vd r0 (radv_clean _ _ _ A)) as H'.
  simcase H'; cbn [try tryE]; split; cbn; eauto.
Qed.

Lemma list_step_sim m tw mg mgE fr : msim mg mgE -> msuf tw mg -> stepsim (list_step m tw mg fr) (list_stepE m tw mgE fr).
Proof.
  intros Hm Hs s r C. unfold list_step, list_stepE.
  pose proof (nested_sim m tw mg mgE tw Hm Hs (fr (lenN s)) r C) as H.
  destruct (merge_nested _ _ _ _ _ _) as [x o], (merge_nestedE _ _ _ _ _ _) as [x' oE].
  destruct H as [E H]. cbn [fst snd] in E, H. subst x'.
  simcase H; cbn [try tryE]; split; cbn; eauto.
Qed.

Lemma map_step_sim m k tw mg mgE fr : msim mg mgE -> msuf tw mg -> stepsim (map_step m k tw mg fr) (map_stepE m k tw mgE fr).
Proof.
  intros Hm Hs s r C. unfold map_step, map_stepE. destruct (uv_sim m 32 r C) as [H _].
  simcase H; cbn [try tryE]; try (split; cbn; auto; fail).
  apply (simS_adv _ _ _ _ _ A). pose proof (radv_clean _ _ _ A) as C0.
  destruct (parse_tag x) as [[fn w]|e| |]; cbn [try tryE]; try (split; reflexivity).
  destruct (validate_field_number fn) as [u|e| |]; cbn [try tryE]; try (split; reflexivity).
  destruct (key_of_fn k fn) as [u'|e| |]; cbn [try tryE]; try (split; reflexivity).
  destruct (assoc fn s) as [v|].
  - pose proof (nested_sim m tw mg mgE tw Hm Hs v r0 C0) as H'.
    destruct (merge_nested _ _ _ _ _ _) as [x1 o], (merge_nestedE _ _ _ _ _ _) as [x' oE].
    destruct H' as [E H']. cbn [fst snd] in E, H'. subst x'. split; [reflexivity|exact H'].
  - pose proof (nested_sim m tw mg mgE tw Hm Hs (fr fn) r0 C0) as H'.
    destruct (merge_nested _ _ _ _ _ _) as [x1 o], (merge_nestedE _ _ _ _ _ _) as [x' oE].
    destruct H' as [E H']. cbn [fst snd] in E, H'. subst x'. simcase H'; cbn [try tryE]; split; cbn; eauto.
Qed.

Lemma arr_loop_sim m tw mg mgE d : msim mg mgE -> msuf tw mg -> forall l r, clean (snd r) ->
  simS r (arr_loop m tw mg d l (content r)) (arr_loopE m tw mgE d l r).
Proof.
  intros Hm Hs. induction l as [|x l IH]; intros r C; cbn [arr_loopE].
  - cbn [arr_loop]. split; [reflexivity|]. split; [reflexivity|]. exists []. now apply radv_refl.
  - pose proof (rd_eof_spec r C) as He. destruct (content r) as [|b bs] eqn:E; cbn [arr_loop].
    + rewrite He. split; [reflexivity|]. split; [exact E|]. exists []. now apply radv_refl.
    + destruct He as [r' [-> A]].
      assert (Ec : content r' = b :: bs) by (apply radv_content in A; cbn in A; congruence).
      apply (simS_adv _ _ _ _ _ A).
      pose proof (de_nested_sim m tw mg mgE Hm Hs d r' (radv_clean _ _ _ A)) as H. rewrite Ec in H.
      simcase H; cbn [try tryE]; try (split; cbn; auto; fail).
      apply (simS_adv _ _ _ _ _ A0). specialize (IH r0 (radv_clean _ _ _ A0)).
      destruct (arr_loop _ _ _ _ _ _) as [l1 o], (arr_loopE _ _ _ _ _ _) as [l2 oE].
      destruct IH as [E1 E2]. cbn [fst snd] in E1, E2. subst l2. split; [reflexivity|exact E2].
Qed.

Lemma tup_read_sim m : forall (ts : list ty), Forall (fun t => msim (merge m t) (mergeE m t)) ts -> forall r, clean (snd r) ->
  simA r (tup_read m (map (fun t => ((wty t, merge m t), dflt t rt_default)) ts) (content r))
         (tup_readE m (map (fun t => ((wty t, mergeE m t), dflt t rt_default)) ts) r).
Proof.
  induction 1 as [|t ts Ht _ IH]; intros r C; cbn [map tup_read tup_readE].
  - cbn. split; [reflexivity|]. split; [reflexivity|]. exists []. now apply radv_refl.
  - pose proof (de_nested_sim m (wty t) _ _ Ht (merge_suf m t) (dflt t rt_default) r C) as H.
    simcase H; cbn [bind]; try (cbn; auto; fail).
    apply (simA_adv _ _ _ _ _ A). specialize (IH r0 (radv_clean _ _ _ A)).
    simcase IH; cbn [bind]; cbn; eauto.
Qed.

Definition fmergersE (m : mode) (fts : list (finfo * ty)) : list (N * (wtype * mergerE)) :=
  map (fun p : finfo * ty => let '(fi, t) := p in (f_tag fi, (wty t, mergeE m t))) fts.

Lemma merge_field_sim m fts : Forall (fun p => msim (merge m (snd p)) (mergeE m (snd p))) fts ->
  forall fs fn w r, clean (snd r) ->
  simS r (merge_field m (fmergers m fts) fs fn w (content r)) (merge_fieldE m (fmergersE m fts) fs fn w r).
Proof.
  induction 1 as [|[fi t] fts Ht _ IH]; intros [|[fi' x] fs] fn w r C; cbn [fmergers fmergersE map merge_field merge_fieldE];
    try (split; reflexivity).
  - split; [reflexivity|]. now apply skip_field_sim.
  - destruct (fn =? f_tag fi).
    + pose proof (nested_sim m (wty t) _ _ w Ht (merge_suf m t) x r C) as H.
      destruct (merge_nested _ _ _ _ _ _) as [x1 o], (merge_nestedE _ _ _ _ _ _) as [x' oE].
      destruct H as [E H']. cbn [fst snd] in E, H'. subst x'. split; [reflexivity|exact H'].
    + specialize (IH fs fn w r C). fold (fmergers m fts) (fmergersE m fts).
      destruct (merge_field _ _ _ _ _ _) as [x1 o], (merge_fieldE _ _ _ _ _ _) as [x' oE].
      destruct IH as [E H']. cbn [fst snd] in E, H'. subst x'. split; [reflexivity|exact H'].
Qed.

Lemma struct_step_sim m fts : Forall (fun p => msim (merge m (snd p)) (mergeE m (snd p))) fts ->
  stepsim (struct_step m (fmergers m fts)) (struct_stepE m (fmergersE m fts)).
Proof.
  intros Hf s r C. unfold struct_step, struct_stepE. pose proof (tag_sim m r C) as H.
  simcase H; cbn [try tryE]; try (split; cbn; auto; fail).
  destruct x as [fn w]. apply (simS_adv _ _ _ _ _ A). apply merge_field_sim; [exact Hf|]. eapply radv_clean; eauto.
Qed.

Lemma mergeE_enum m st vs tag c r0 fs r :
  mergeE m (TEnum st vs) (VEnum tag c r0 fs) r =
  tryE (VEnum tag c r0 fs) (uv_deserializeE m 32 r) (fun '(tag', rest) =>
    match find_variant vs tag' with
    | None => (VEnum tag c r0 fs, Err InvalidData)
    | Some va =>
        tryE (VEnum tag c r0 fs)
            (if tag =? tag' then Ok (VEnum tag c r0 fs)
             else do p <- enum_parent r0; Ok (variant_ctor st va p)) (fun v1 =>
          match v1 with
          | VEnum tag1 c1 r1 fs1 =>
              let '(fs', o) := runE (struct_stepE m (fmergersE m (snd va))) fs1 rest in
              (VEnum tag1 c1 r1 fs', o)
          | _ => (v1, NoFuel)
          end)
    end).
Proof.
  cbn [mergeE]. destruct (uv_deserializeE m 32 r) as [[tag' rest]|e| |]; try reflexivity. cbn [tryE].
  unfold find_variant. induction vs as [|[[vtag vc] fts] vs IH]; [reflexivity|].
  cbn [find fst]. rewrite (N.eqb_sym vtag tag'). destruct (tag' =? vtag); [reflexivity|exact IH].
Qed.

Lemma sim_nofuel {S} (s : S) r : simS r (s, NoFuel) (s, NoFuel).
Proof. split; reflexivity. Qed.

Lemma merge_sim m t : msim (merge m t) (mergeE m t).
Proof.
  induction t as [k| | | |t IH|t IH|n t IH|ts IH|k t IHk IHt|t IH|si fs IH|st vs IH|t IH|k t IH]
    using ty_ind'; intros v r C.
  - destruct v; try (apply sim_nofuel). cbn [merge mergeE]. destruct (ikind_eqb k k0); [|apply sim_nofuel].
    pose proof (int_sim m k r C) as H. simcase H; cbn [try tryE]; split; cbn; eauto.
  - destruct v; try (apply sim_nofuel). cbn [merge mergeE].
    pose proof (bool_loop_sim (rd_fuel r) r false C (rd_fuel_spec r)) as H. unfold bool_deserialize, bool_deserializeE.
    simcase H; cbn [try tryE]; split; cbn; eauto.
  - destruct v; try (apply sim_nofuel). cbn [merge mergeE]. destruct (to_end_sim r C) as [r' [-> [E A]]]. cbn [tryE].
    destruct (utf8_valid (content r)); split; cbn; eauto.
  - destruct v; try (apply sim_nofuel). cbn [merge mergeE]. destruct (to_end_sim r C) as [r' [-> [E A]]]. cbn [tryE].
    split; cbn; eauto.
  - destruct v; try (apply sim_nofuel). cbn [merge mergeE].
    pose proof (run_sim _ _ (opt_step_sim m (wty t) _ _ (dflt t rt_default) IH (merge_suf m t))
                  (opt_step_consuming m _ _ _ (merge_suf m t)) o r C) as H.
    destruct (run _ _ _) as [x1 o1], (runE _ _ _) as [x' oE].
    destruct H as [E H']. cbn [fst snd] in E, H'. subst x'. split; [reflexivity|exact H'].
  - destruct v; try (apply sim_nofuel). cbn [merge mergeE].
    pose proof (run_sim _ _ (vec_step_sim m (wty t) _ _ (dflt t rt_default) IH (merge_suf m t))
                  (vec_step_consuming m _ _ _ (merge_suf m t)) l r C) as H.
    destruct (run _ _ _) as [x1 o1], (runE _ _ _) as [x' oE].
    destruct H as [E H']. cbn [fst snd] in E, H'. subst x'. split; [reflexivity|exact H'].
  - destruct v; try (apply sim_nofuel). cbn [merge mergeE].
    pose proof (arr_loop_sim m (wty t) _ _ (dflt t rt_default) IH (merge_suf m t) l r C) as H.
    destruct (arr_loop _ _ _ _ _ _) as [x1 o1], (arr_loopE _ _ _ _ _ _) as [x' oE].
    destruct H as [E H']. cbn [fst snd] in E, H'. subst x'. split; [reflexivity|]. cbn [snd].
    simcase H'; cbn [drain drain_res bind]; try (cbn; auto; fail).
    destruct (to_end_sim r0 (radv_clean _ _ _ A)) as [r' [-> [E A']]]. cbn.
    split; [exact E|]. eexists. eapply radv_trans; eauto.
  - destruct v; try (apply sim_nofuel). cbn [merge mergeE].
    pose proof (tup_read_sim m ts IH r C) as H. simcase H; cbn [try tryE]; try (split; cbn; auto; fail).
    split; [reflexivity|]. cbn [snd drain_res bind].
    destruct (to_end_sim r0 (radv_clean _ _ _ A)) as [r' [-> [E A']]]. cbn.
    split; [exact E|]. eexists. eapply radv_trans; eauto.
  - destruct v; try (apply sim_nofuel). cbn [merge mergeE].
    pose proof (run_sim _ _ (hash_step_sim m (wty k) _ _ (dflt k rt_default) (wty t) _ _ (dflt t rt_default)
                  IHk (merge_suf m k) IHt (merge_suf m t))
                  (hash_step_consuming m _ _ _ _ _ _ (merge_suf m k) (merge_suf m t)) l r C) as H.
    destruct (run _ _ _) as [x1 o1], (runE _ _ _) as [x' oE].
    destruct H as [E H']. cbn [fst snd] in E, H'. subst x'. split; [reflexivity|exact H'].
  - destruct v; try (apply sim_nofuel). cbn [merge mergeE]. specialize (IH v r C).
    destruct (merge m t v (content r)) as [x1 o1], (mergeE m t v r) as [x' oE].
    destruct IH as [E H']. cbn [fst snd] in E, H'. subst x'. split; [reflexivity|exact H'].
  - destruct v as [| | | | | | | | | |c r0 l| | |]; try (apply sim_nofuel). rewrite merge_struct. cbn [mergeE].
    fold (fmergersE m fs).
    pose proof (run_sim _ _ (struct_step_sim m fs IH) (struct_step_consuming m _ (fields_suf m fs)) l r C) as H.
    destruct (run _ _ _) as [x1 o1], (runE _ _ _) as [x' oE].
    destruct H as [E H']. cbn [fst snd] in E, H'. subst x'. split; [reflexivity|exact H'].
  - destruct v as [| | | | | | | | | | |tag c r0 l| |]; try (apply sim_nofuel). rewrite merge_enum, mergeE_enum.
    destruct (uv_sim m 32 r C) as [H _]. simcase H; cbn [try tryE]; try (split; cbn; auto; fail).
    apply (simS_adv _ _ _ _ _ A). pose proof (radv_clean _ _ _ A) as C0.
    destruct (find_variant vs x) as [va|] eqn:Ef; [|split; reflexivity].
    assert (Hva : Forall (fun p => msim (merge m (snd p)) (mergeE m (snd p))) (snd va)).
    { rewrite Forall_forall in IH. apply IH. unfold find_variant in Ef. now apply find_some in Ef. }
    destruct (if tag =? x then Ok (VEnum tag c r0 l) else do p <- enum_parent r0; Ok (variant_ctor st va p)) as [v1|e| |];
      cbn [try tryE]; try (split; reflexivity).
    destruct v1; try (apply sim_nofuel).
    match goal with |- context [run _ ?fs0 _] => 
      pose proof (run_sim _ _ (struct_step_sim m (snd va) Hva) (struct_step_consuming m _ (fields_suf m (snd va))) fs0 r1 C0) as H2 end.
    destruct (run _ _ _) as [x1 o1], (runE _ _ _) as [x' oE].
    destruct H2 as [E H']. cbn [fst snd] in E, H'. subst x'. split; [reflexivity|exact H'].
  - destruct v as [| | | | | | | | | | | |r0 l|]; try (apply sim_nofuel). cbn [merge mergeE].
    pose proof (run_sim _ _ (list_step_sim m (wty t) _ _ (fun i => dflt t (nested r0 i)) IH (merge_suf m t))
                  (list_step_consuming m _ _ _ (merge_suf m t)) l r C) as H.
    destruct (run _ _ _) as [x1 o1], (runE _ _ _) as [x' oE].
    destruct H as [E H']. cbn [fst snd] in E, H'. subst x'. split; [reflexivity|exact H'].
  - destruct v as [| | | | | | | | | | | | |r0 l]; try (apply sim_nofuel). cbn [merge mergeE].
    pose proof (run_sim _ _ (map_step_sim m k (wty t) _ _ (fun i => dflt t (nested r0 i)) IH (merge_suf m t))
                  (map_step_consuming m k _ _ _ (merge_suf m t)) l r C) as H.
    destruct (run _ _ _) as [x1 o1], (runE _ _ _) as [x' oE].
    destruct H as [E H']. cbn [fst snd] in E, H'. subst x'. split; [reflexivity|exact H'].
Qed.
