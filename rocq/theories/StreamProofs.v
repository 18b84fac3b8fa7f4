(** Decoding from a source that gives its bytes in pieces, or fails: what it has to do with decoding bytes. *)
From Verif Require Import Base Varint WireFmt Utf8 Types Ser Spec De Log State ValInd VarintProofs WireProofs
  SerProofs TypeProofs EqProofs DeProofs RoundTrip Stream.

Definition opt1 (o : option N) : bytes := match o with Some b => [b] | None => [] end.

(** The bytes that arrive before the source ends or fails, and how it fails. *)
Fixpoint arriving (ev : list event) : bytes :=
  match ev with
  | [] => []
  | Data b bs :: ev => (b :: bs) ++ arriving ev
  | Fails Interrupted :: ev => arriving ev
  | Fails (Other _) :: _ => []
  end.
Fixpoint failing (ev : list event) : option N :=
  match ev with
  | [] => None
  | Data _ _ :: ev => failing ev
  | Fails Interrupted :: ev => failing ev
  | Fails (Other n) :: _ => Some n
  end.
(** Interruptions are hidden, or there are none. *)
Definition calm (o : lib) (ev : list event) : Prop := again o = true \/ ~ In (Fails Interrupted) ev.

Fixpoint src_fail (s : source) : option N := match s with Base ev => failing ev | Lim _ _ s => src_fail s end.
Fixpoint src_calm (o : lib) (s : source) : Prop := match s with Base ev => calm o ev | Lim _ _ s => src_calm o s end.

(** The bytes a source, a reader still has to give, if [cs] came where it fails. *)
Fixpoint src_bytes (cs : bytes) (s : source) : bytes :=
  match s with
  | Base ev => arriving ev ++ cs
  | Lim n kept s => fst (splitN n (opt1 kept ++ src_bytes cs s))
  end.
Definition content (cs : bytes) (r : reader) : bytes := opt1 (fst r) ++ src_bytes cs (snd r).

(** What may come: nothing if the source does not fail. *)
Definition possible (cs : bytes) (s : source) : Prop := src_fail s = None -> cs = [].

(** Nothing kept below the top. *)
Fixpoint clean (s : source) : Prop :=
  match s with Base _ => True | Lim _ kept s => kept = None /\ clean s end.

(** A limit is reached before the failure. *)
Fixpoint capped (s : source) : Prop :=
  match s with
  | Base _ => False
  | Lim n kept s => n <= lenN (src_bytes [] s) \/ capped s
  end.

(** [x] is read from [s], at every level. *)
Inductive adv : source -> bytes -> source -> Prop :=
| adv_base x ev ev' : arriving ev = x ++ arriving ev' -> failing ev = failing ev' ->
    (forall e, In (Fails e) ev' -> In (Fails e) ev) -> adv (Base ev) x (Base ev')
| adv_lim n s x s' : adv s x s' -> lenN x <= n -> adv (Lim n None s) x (Lim (n - lenN x) None s').

Lemma splitN_fst_app {A} (x y : list A) : forall n, lenN x <= n ->
  fst (splitN n (x ++ y)) = x ++ fst (splitN (n - lenN x) y) /\ snd (splitN n (x ++ y)) = snd (splitN (n - lenN x) y).
Proof.
  induction x as [|b x IH]; intros n L; cbn [app].
  - unfold lenN. cbn. now rewrite N.sub_0_r.
  - unfold lenN in *. cbn [length] in *. cbn [splitN]. destruct (n =? 0) eqn:E; [lia|].
    destruct (IH (n - 1)) as [E1 E2]; [lia|]. destruct (splitN (n - 1) (x ++ y)) as [p q].
    cbn [fst snd] in *. replace (n - N.of_nat (S (length x))) with (n - 1 - N.of_nat (length x)) by lia.
    now rewrite E1, E2.
Qed.
Lemma splitN_zero {A} (l : list A) : splitN 0 l = ([], l).
Proof. now destruct l. Qed.
Lemma splitN_short {A} (l l' : list A) : forall n, n <= lenN l -> fst (splitN n (l ++ l')) = fst (splitN n l).
Proof.
  induction l as [|b l IH]; intros n L; cbn [app].
  - unfold lenN in L. cbn in L. assert (n = 0) by lia. subst n. now rewrite !splitN_zero.
  - cbn [splitN]. destruct (n =? 0) eqn:E; [reflexivity|]. unfold lenN in *. cbn [length] in L.
    specialize (IH (n - 1) ltac:(lia)). destruct (splitN (n - 1) (l ++ l')), (splitN (n - 1) l). cbn in *. now f_equal.
Qed.

Lemma adv_bytes cs s x s' : adv s x s' -> src_bytes cs s = x ++ src_bytes cs s'.
Proof.
  induction 1 as [x ev ev' E F I|n s x s' H IH L]; cbn [src_bytes opt1 app]; [now rewrite E, app_assoc|].
  rewrite IH. now apply splitN_fst_app.
Qed.
Lemma adv_refl s : clean s -> adv s [] s.
Proof.
  induction s as [ev|n k s IH]; intros C; [constructor; auto|].
  destruct C as [-> C]. replace (Lim n None s) with (Lim (n - lenN (@nil N)) None s) at 2.
  - constructor; [now apply IH|unfold lenN; cbn; lia].
  - unfold lenN. cbn. now rewrite N.sub_0_r.
Qed.
Lemma adv_trans s x s' : adv s x s' -> forall y s'', adv s' y s'' -> adv s (x ++ y) s''.
Proof.
  induction 1 as [x ev ev' E F I|n s x s' H IH L]; intros y s'' H'; inversion H'; subst.
  - constructor; [|congruence|auto]. rewrite E, <- app_assoc. congruence.
  - replace (n - lenN x - lenN y) with (n - lenN (x ++ y)) by (rewrite lenN_app; lia).
    constructor; [now apply IH|rewrite lenN_app; lia].
Qed.
Lemma adv_clean s x s' : adv s x s' -> clean s /\ clean s'.
Proof. induction 1 as [|n s x s' H [IH1 IH2] L]; cbn; auto. Qed.
Lemma adv_fail s x s' : adv s x s' -> src_fail s = src_fail s'.
Proof. induction 1; cbn; auto. Qed.
Lemma adv_calm o s x s' : adv s x s' -> src_calm o s -> src_calm o s'.
Proof. induction 1 as [x ev ev' E F I|]; cbn; auto. intros [H|H]; [now left|right]. intros K. auto. Qed.
Lemma adv_capped s x s' : adv s x s' -> capped s -> capped s'.
Proof.
  induction 1 as [|n s x s' H IH L]; cbn [capped]; auto. intros [K|K]; [left|right; auto].
  rewrite (adv_bytes [] _ _ _ H), lenN_app in K. lia.
Qed.

(** Where a limit is reached first, nothing depends on what would have come. *)
Lemma capped_bytes cs s : clean s -> capped s -> src_bytes cs s = src_bytes [] s.
Proof.
  induction s as [ev|n k s IH]; intros C K; [destruct K|]. destruct C as [-> C]. cbn [src_bytes opt1 app capped] in *.
  destruct K as [K|K]; [|now rewrite IH].
  clear IH. assert (exists t, src_bytes cs s = src_bytes [] s ++ t) as [t ->]; [|now apply splitN_short].
  clear n K. induction s as [ev|n k s IH]; cbn [src_bytes]; [exists cs; now rewrite app_nil_r|].
  destruct C as [-> C]. cbn [opt1 app]. destruct (IH C) as [t ->].
  generalize (src_bytes [] s) as l. clear. intros l. revert n.
  induction l as [|b l IH]; intros n; cbn [app]; [cbn [splitN fst app]; eauto|]. cbn [splitN].
  destruct (n =? 0); [now exists []|]. destruct (IH (n - 1)) as [u E].
  destruct (splitN (n - 1) (l ++ t)), (splitN (n - 1) l). cbn [fst] in *. exists u. now rewrite E.
Qed.

(** ** One call of [read] *)

Inductive got (n : nat) (s : source) : (ioerr + bytes) * source -> Prop :=
| got_end s' : s' = s -> (forall cs, possible cs s -> src_bytes cs s = []) -> got n s (inr [], s')
| got_some b x s' : (length (b :: x) <= n)%nat -> adv s (b :: x) s' -> (src_len s' < src_len s)%nat -> got n s (inr (b :: x), s')
| got_intr s' : adv s [] s' -> (src_len s' < src_len s)%nat -> (forall o, src_calm o s -> again o = true) -> got n s (inl Interrupted, s')
| got_fail e s' : src_fail s = Some e -> ~ capped s -> src_bytes [] s = [] -> got n s (inl (Other e), s').

Lemma src_read_got s : forall n, clean s -> (0 < n)%nat -> got n s (src_read n s).
Proof.
  induction s as [ev|l k s IH]; intros n C P.
  - destruct ev as [|[b bs|[|e]] ev]; cbn [src_read].
    + apply got_end; [reflexivity|]. intros cs K. cbn. now apply K.
    + destruct n as [|n]; [lia|]. cbn [firstn skipn]. apply got_some.
      * cbn [length]. rewrite firstn_length. lia.
      * constructor.
        -- cbn [arriving]. rewrite <- (firstn_skipn n bs) at 1. cbn [app]. rewrite <- app_assoc.
           destruct (skipn n bs); reflexivity.
        -- destruct (skipn n bs); reflexivity.
        -- intros e H. right. destruct (skipn n bs); [exact H|]. destruct H as [H|H]; [discriminate H|exact H].
      * cbn [src_len map ev_len list_sum fold_right]. pose proof (skipn_length n bs) as L.
        destruct (skipn n bs) as [|b' bs']; cbn [map ev_len list_sum fold_right length] in *; unfold list_sum in *; lia.
    + apply got_intr; [constructor; auto; now right|cbn; unfold list_sum; lia|].
      intros o [H|H]; [exact H|]. destruct H. now left.
    + now apply got_fail; [|intros []|].
  - destruct C as [-> C]. cbn [src_read]. destruct (l =? 0) eqn:El.
    + apply got_end; [reflexivity|]. intros cs _. cbn [src_bytes opt1 app]. replace l with 0 by lia. now rewrite splitN_zero.
    + specialize (IH (Nat.min n (N.to_nat l)) C ltac:(lia)). destruct IH as [s' -> E|b x s' L A W|s' A W K|e s' F K E].
      * apply got_end; [unfold lenN; cbn; now rewrite N.sub_0_r|]. intros cs K. cbn [src_bytes opt1 app].
        rewrite E by exact K. reflexivity.
      * apply got_some; [lia|constructor; [exact A|unfold lenN; lia]|cbn; lia].
      * apply got_intr; [|cbn; lia|exact K]. replace (Lim l None s') with (Lim (l - lenN (@nil N)) None s') by (unfold lenN; cbn; now rewrite N.sub_0_r).
        constructor; [exact A|unfold lenN; cbn; lia].
      * apply got_fail; [exact F| |cbn [src_bytes opt1 app]; now rewrite E].
        cbn [capped]. rewrite E. unfold lenN. cbn. intros [H|H]; [lia|auto].
Qed.

(** [r'] is [r] after [x]. *)
Definition radv (r : reader) (x : bytes) (r' : reader) : Prop :=
  exists y, adv (snd r) y (snd r') /\ opt1 (fst r) ++ y = x ++ opt1 (fst r').

Lemma radv_content cs r x r' : radv r x r' -> content cs r = x ++ content cs r'.
Proof.
  intros [y [H E]]. unfold content. rewrite (adv_bytes cs _ _ _ H), app_assoc, E. now rewrite <- app_assoc.
Qed.
Lemma radv_refl r : clean (snd r) -> radv r [] r.
Proof. intros C. exists []. split; [now apply adv_refl|]. now rewrite app_nil_r. Qed.
Lemma radv_trans r x r' y r'' : radv r x r' -> radv r' y r'' -> radv r (x ++ y) r''.
Proof.
  intros [x1 [H1 E1]] [y1 [H2 E2]]. exists (x1 ++ y1). split; [eapply adv_trans; eauto|].
  rewrite app_assoc, E1, <- app_assoc, E2, app_assoc. reflexivity.
Qed.

(** What holds of every reader met: [cs] is possible, interruptions are hidden, nothing is kept below. *)
Record fine (o : lib) (cs : bytes) (r : reader) : Prop := mkFine {
  fine_clean : clean (snd r);
  fine_cs : possible cs (snd r);
  fine_calm : src_calm o (snd r) }.
Lemma radv_fine o cs r x r' : radv r x r' -> fine o cs r -> fine o cs r'.
Proof.
  intros [y [H _]] [C P K]. split; [now apply adv_clean in H| |eapply adv_calm; eauto].
  unfold possible in *. now rewrite <- (adv_fail _ _ _ H).
Qed.
(** The reader fails before any limit. *)
Definition breaks (r : reader) (x : ioerr) : Prop :=
  exists e, x = Other e /\ src_fail (snd r) = Some e /\ ~ capped (snd r).
Lemma radv_breaks r y r' x : radv r y r' -> breaks r' x -> breaks r x.
Proof.
  intros [z [H _]] (e & -> & F & K). exists e. split; [reflexivity|]. rewrite (adv_fail _ _ _ H). split; [exact F|].
  intros K'. apply K. eapply adv_capped; eauto.
Qed.

Definition weight (r : reader) : nat := (match fst r with Some _ => 1 | None => 0 end + src_len (snd r))%nat.

Inductive gotr (n : nat) (r : reader) : (ioerr + bytes) * reader -> Prop :=
| gotr_end r' : radv r [] r' -> (forall o cs, fine o cs r -> content cs r = []) -> gotr n r (inr [], r')
| gotr_some b x r' : (length (b :: x) <= n)%nat -> radv r (b :: x) r' -> fst r' = None -> (weight r' < weight r)%nat -> gotr n r (inr (b :: x), r')
| gotr_intr r' : radv r [] r' -> (weight r' < weight r)%nat -> (forall o, src_calm o (snd r) -> again o = true) -> gotr n r (inl Interrupted, r')
| gotr_fail e r' : breaks r (Other e) -> content [] r = [] -> gotr n r (inl (Other e), r').

Lemma rd_some_got n r : clean (snd r) -> (0 < n)%nat -> gotr n r (rd_some n r).
Proof.
  intros C P. destruct r as [[b|] s]; cbn [rd_some].
  - apply gotr_some; [cbn; lia| |reflexivity|cbn; lia]. exists []. split; [now apply adv_refl|reflexivity].
  - cbn in C. pose proof (src_read_got s n C P) as H. destruct H as [s' -> E|b x s' L A W|s' A W K|e s' F K E].
    + apply gotr_end; [now apply radv_refl|]. intros o cs [_ K _]. unfold content. cbn. now apply E.
    + apply gotr_some; [exact L| |reflexivity|cbn; lia]. exists (b :: x). split; [exact A|]. cbn. now rewrite app_nil_r.
    + apply gotr_intr; [|cbn; lia|exact K]. exists []. split; [exact A|reflexivity].
    + apply gotr_fail; [|exact E]. exists e. auto.
Qed.

(** ** Outcomes that agree *)

Definition simA {A} (cs : bytes) (r : reader) (c : res (A * bytes)) (cF : resF (A * reader)) : Prop :=
  match cF with
  | OkF (x, r') => c = Ok (x, content cs r') /\ exists y, radv r y r'
  | ErrF e => c = Err e
  | IoF x => breaks r x
  | PanicF => c = Panic
  | NoFuelF => c = NoFuel
  end.
Definition sim (cs : bytes) (r : reader) (c : res bytes) (cF : resF reader) : Prop :=
  match cF with
  | OkF r' => c = Ok (content cs r') /\ exists y, radv r y r'
  | ErrF e => c = Err e
  | IoF x => breaks r x
  | PanicF => c = Panic
  | NoFuelF => c = NoFuel
  end.
Definition simS {S} (cs : bytes) (r : reader) (p : S * res bytes) (q : S * resF reader) : Prop :=
  sim cs r (snd p) (snd q) /\ ((exists x, snd q = IoF x) \/ fst p = fst q).

Lemma sim_adv cs r y r' c cF : radv r y r' -> sim cs r' c cF -> sim cs r c cF.
Proof.
  intros H. destruct cF; cbn; auto.
  - intros [E [z Hz]]. split; [exact E|]. eexists. eapply radv_trans; eauto.
  - now apply radv_breaks with y.
Qed.
Lemma simA_adv {A} cs r y r' (c : res (A * bytes)) cF : radv r y r' -> simA cs r' c cF -> simA cs r c cF.
Proof.
  intros H. destruct cF as [[]| | | |]; cbn; auto.
  - intros [E [z Hz]]. split; [exact E|]. eexists. eapply radv_trans; eauto.
  - now apply radv_breaks with y.
Qed.
Lemma simS_adv {S} cs r y r' (p : S * res bytes) q : radv r y r' -> simS cs r' p q -> simS cs r p q.
Proof. intros H [E1 E2]. split; [|exact E2]. eapply sim_adv; eauto. Qed.

(** ** The parts of the decoder *)

Lemma exact_sim o cs : forall f r, fine o cs r -> (weight r < f)%nat ->
  match exact_loop f r with
  | OkF (b, r') => radv r [b] r' /\ fst r' = None /\ (weight r' < weight r)%nat
  | ErrF e => e = UnexpectedEof /\ content cs r = []
  | IoF x => breaks r x /\ content [] r = []
  | _ => False
  end.
Proof.
  induction f as [|f IH]; intros r F L; [lia|]. cbn [exact_loop].
  destruct (rd_some_got 1 r (fine_clean _ _ _ F) ltac:(lia)) as [r' A E|b x r' Lx A K W|r' A W K|e r' B Eb]; auto.
  - split; [reflexivity|]. now apply (E o).
  - destruct x; [auto|cbn in Lx; lia].
  - specialize (IH r' (radv_fine _ _ _ _ _ A F) ltac:(lia)). destruct (exact_loop f r') as [[b r'']|e|x| |]; auto.
    + destruct IH as [A' [K' W']]. split; [exact (radv_trans _ _ _ _ _ A A')|]. split; [exact K'|lia].
    + destruct IH as [-> E]. split; [reflexivity|]. now rewrite (radv_content cs _ _ _ A).
    + destruct IH as [B E]. split; [now apply (radv_breaks _ _ _ _ A)|]. now rewrite (radv_content [] _ _ _ A).
Qed.
Lemma rd_exact_sim o cs r : fine o cs r ->
  match rd_exact r with
  | OkF (b, r') => radv r [b] r' /\ fst r' = None /\ (weight r' < weight r)%nat
  | ErrF e => e = UnexpectedEof /\ content cs r = []
  | IoF x => breaks r x /\ content [] r = []
  | _ => False
  end.
Proof. intros F. apply (exact_sim o); [exact F|]. unfold rd_fuel, weight. lia. Qed.

Lemma eof_sim o cs : forall f r, fine o cs r -> (weight r < f)%nat ->
  match eof_loop f o r with
  | OkF (true, r') => content cs r = [] /\ radv r [] r'
  | OkF (false, r') => content cs r <> [] /\ radv r [] r'
  | IoF x => breaks r x /\ content [] r = []
  | _ => False
  end.
Proof.
  induction f as [|f IH]; intros r F L; [lia|]. cbn [eof_loop]. destruct r as [[b|] s].
  - split; [discriminate|]. apply radv_refl. apply F.
  - destruct F as [C P K]. cbn [fst snd] in *.
    destruct (src_read_got s 1 C ltac:(lia)) as [s' -> E|b x s' Lx A W|s' A W Q|e s' Fl Q E].
    + split; [unfold content; cbn; now apply E|now apply radv_refl].
    + assert (R : radv (None, s) [] (Some b, s')).
      { destruct x; [|cbn in Lx; lia]. exists [b]. split; [exact A|reflexivity]. }
      split; [|exact R]. rewrite (radv_content cs _ _ _ R). discriminate.
    + rewrite (Q o K). assert (R : radv (None, s) [] (None, s')) by (exists []; split; [exact A|reflexivity]).
      specialize (IH (None, s') (radv_fine _ _ _ _ _ R (mkFine o cs (None, s) C P K)) ltac:(cbn in *; lia)).
      destruct (eof_loop f o (None, s')) as [[[|] r'']|e|x| |]; auto.
      * destruct IH as [E R']. rewrite (radv_content cs _ _ _ R). split; [exact E|exact (radv_trans _ _ _ _ _ R R')].
      * destruct IH as [E R']. rewrite (radv_content cs _ _ _ R). split; [exact E|exact (radv_trans _ _ _ _ _ R R')].
      * destruct IH as [B E]. split; [now apply (radv_breaks _ _ _ _ R)|]. now rewrite (radv_content [] _ _ _ R).
    + split; [exists e; auto|exact E].
Qed.
Lemma rd_eof_sim o cs r : fine o cs r ->
  match rd_eof o r with
  | OkF (true, r') => content cs r = [] /\ radv r [] r'
  | OkF (false, r') => content cs r <> [] /\ radv r [] r'
  | IoF x => breaks r x /\ content [] r = []
  | _ => False
  end.
Proof. intros F. apply eof_sim; [exact F|]. unfold rd_fuel, weight. lia. Qed.

Lemma uv_loop_sim o cs m bits : forall f r value off, fine o cs r -> (weight r < f)%nat ->
  simA cs r (uv_de_loop m bits value off (content cs r)) (uv_de_loopF f m bits value off r) /\
  forall x r', uv_de_loopF f m bits value off r = OkF (x, r') -> fst r' = None.
Proof.
  induction f as [|f IH]; intros r value off F L; [lia|].
  cbn [uv_de_loopF]. pose proof (rd_exact_sim o cs r F) as H. destruct (rd_exact r) as [[b r']|e|x| |]; cbn [bindF]; try contradiction.
  - destruct H as [A [K W]]. rewrite (radv_content cs _ _ _ A). cbn [app uv_de_loop].
    assert (G : forall sh, let value' := N.lor value (N.shiftl (N.land b 127) sh mod 2 ^ bits) in
      simA cs r (if N.land b 128 =? 0 then Ok (value', content cs r') else uv_de_loop m bits value' (off + 7) (content cs r'))
                (if N.land b 128 =? 0 then OkF (value', r') else uv_de_loopF f m bits value' (off + 7) r') /\
      forall x r'', (if N.land b 128 =? 0 then OkF (value', r') else uv_de_loopF f m bits value' (off + 7) r') = OkF (x, r'') -> fst r'' = None).
    { intros sh value'. destruct (N.land b 128 =? 0).
      - split; [cbn; eauto|]. intros x r'' E. inversion E; subst. exact K.
      - specialize (IH r' value' (off + 7) (radv_fine _ _ _ _ _ A F) ltac:(lia)). destruct IH as [I1 I2].
        split; [exact (simA_adv _ _ _ _ _ _ A I1)|exact I2]. }
    destruct (off <? bits); [apply G|]. destruct m; [split; [reflexivity|discriminate]|apply G].
  - destruct H as [-> ->]. split; [reflexivity|discriminate].
  - split; [exact (proj1 H)|discriminate].
Qed.
Lemma uv_sim o cs m bits r : fine o cs r ->
  simA cs r (uv_deserialize m bits (content cs r)) (uv_deserializeF m bits r) /\
  forall x r', uv_deserializeF m bits r = OkF (x, r') -> fst r' = None.
Proof. intros F. apply (uv_loop_sim o); [exact F|]. unfold rd_fuel, weight. lia. Qed.

(** A number that has arrived is read. *)
Lemma uv_loop_io o m bits : forall f r value off x, fine o [] r -> (weight r < f)%nat ->
  uv_de_loopF f m bits value off r = IoF x -> uv_de_loop m bits value off (content [] r) = Err UnexpectedEof.
Proof.
  induction f as [|f IH]; intros r value off x F L; [lia|].
  cbn [uv_de_loopF]. pose proof (rd_exact_sim o [] r F) as H. destruct (rd_exact r) as [[b r']|e|y| |]; cbn [bindF]; try contradiction; try discriminate.
  - destruct H as [A [K W]]. rewrite (radv_content [] _ _ _ A). cbn [app uv_de_loop].
    assert (G : forall sh, let value' := N.lor value (N.shiftl (N.land b 127) sh mod 2 ^ bits) in
      (if N.land b 128 =? 0 then OkF (value', r') else uv_de_loopF f m bits value' (off + 7) r') = IoF x ->
      (if N.land b 128 =? 0 then Ok (value', content [] r') else uv_de_loop m bits value' (off + 7) (content [] r')) = Err UnexpectedEof).
    { intros sh value'. destruct (N.land b 128 =? 0); [discriminate|].
      intros E. eapply (IH r' value' (off + 7) x); [exact (radv_fine _ _ _ _ _ A F)|lia|exact E]. }
    destruct (off <? bits); [apply G|]. destruct m; [discriminate|apply G].
  - destruct H as [_ ->]. reflexivity.
Qed.
Lemma uv_io o m bits r x : fine o [] r -> uv_deserializeF m bits r = IoF x -> uv_deserialize m bits (content [] r) = Err UnexpectedEof.
Proof. intros F. apply (uv_loop_io o); [exact F|]. unfold rd_fuel, weight. lia. Qed.

(** Cases of an outcome of [simA], [sim]. *)
Ltac simcase H :=
  let r' := fresh "r" in let y := fresh "y" in let e := fresh "e" in let x := fresh "x" in
  let A := fresh "A" in let E := fresh "E" in
  match type of H with
  | simA ?cs ?r ?c ?cF => destruct cF as [[x r']|e|e| |] eqn:?; cbn [simA] in H;
      [destruct H as [E [y A]]; rewrite E|rewrite H| |rewrite H|rewrite H]
  | sim ?cs ?r ?c ?cF => destruct cF as [r'|e|e| |] eqn:?; cbn [sim] in H;
      [destruct H as [E [y A]]; rewrite E|rewrite H| |rewrite H|rewrite H]
  end.

Lemma int_sim o cs m k r : fine o cs r -> simA cs r (int_deserialize m k (content cs r)) (int_deserializeF m k r).
Proof.
  intros F. unfold int_deserialize, int_deserializeF. destruct (uv_sim o cs m (ibits k) r F) as [H _].
  simcase H; cbn; eauto.
Qed.

Lemma bool_loop_sim o cs : forall f r value, fine o cs r -> (weight r < f)%nat ->
  simA cs r (bool_de_loop value (content cs r)) (bool_de_loopF f value r).
Proof.
  induction f as [|f IH]; intros r value F L; [lia|].
  cbn [bool_de_loopF]. pose proof (rd_exact_sim o cs r F) as H. destruct (rd_exact r) as [[b r']|e|x| |]; cbn [bindF]; try contradiction.
  - destruct H as [A [K W]]. rewrite (radv_content cs _ _ _ A). cbn [app bool_de_loop]. destruct (N.land b 128 =? 0).
    + cbn. eauto.
    + apply (simA_adv _ _ _ _ _ _ A). apply IH; [exact (radv_fine _ _ _ _ _ A F)|lia].
  - destruct H as [-> ->]. reflexivity.
  - exact (proj1 H).
Qed.

Lemma drain_sim o cs : forall f got r, fine o cs r -> (weight r < f)%nat ->
  match drainF f o got r with
  | (bs, OkF r') => bs = got ++ content cs r /\ content cs r' = [] /\ exists y, radv r y r'
  | (_, IoF x) => breaks r x
  | _ => False
  end.
Proof.
  induction f as [|f IH]; intros got r F L; [lia|]. cbn [drainF].
  destruct (rd_some_got (S (buf o (length got))) r (fine_clean _ _ _ F) ltac:(lia)) as [r' A E|b x r' Lx A K W|r' A W K|e r' B Eb].
  - pose proof (E o cs F) as E0. rewrite E0, app_nil_r. split; [reflexivity|]. split; [|eauto].
    now rewrite (radv_content cs _ _ _ A) in E0.
  - specialize (IH (got ++ b :: x) r' (radv_fine _ _ _ _ _ A F) ltac:(lia)). destruct (drainF f o (got ++ b :: x) r') as [bs [r''|e|e| |]]; auto.
    + destruct IH as [-> [E [y A']]]. split; [rewrite (radv_content cs _ _ _ A); now rewrite <- app_assoc|].
      split; [exact E|]. eexists. eapply radv_trans; eauto.
    + now apply (radv_breaks _ _ _ _ A).
  - specialize (IH got r' (radv_fine _ _ _ _ _ A F) ltac:(lia)). destruct (drainF f o got r') as [bs [r''|e|e| |]]; auto.
    + destruct IH as [-> [E [y A']]]. split; [now rewrite (radv_content cs _ _ _ A)|].
      split; [exact E|]. eexists. eapply radv_trans; eauto.
    + now apply (radv_breaks _ _ _ _ A).
  - exact B.
Qed.
Lemma to_end_sim o cs r : fine o cs r ->
  match to_endF o r with
  | (bs, OkF r') => bs = content cs r /\ content cs r' = [] /\ exists y, radv r y r'
  | (_, IoF x) => breaks r x
  | _ => False
  end.
Proof. intros F. apply (drain_sim o cs _ [] r F). unfold rd_fuel, weight. lia. Qed.
Lemma drain_res_sim o cs r : fine o cs r -> sim cs r (Ok []) (drain_resF o (OkF r)).
Proof.
  intros F. unfold drain_resF. cbn [bindF]. pose proof (to_end_sim o cs r F) as H.
  destruct (to_endF o r) as [bs [r'|e|e| |]]; try contradiction; cbn; auto. destruct H as [_ [-> A]]. auto.
Qed.

Lemma skip_sim o cs : forall f k n r, fine o cs r -> (weight r < f)%nat ->
  match skipF f o k n r with
  | OkF r' => content cs r' = snd (splitN n (content cs r)) /\ exists y, radv r y r'
  | IoF x => breaks r x
  | _ => False
  end.
Proof.
  induction f as [|f IH]; intros k n r F L; [lia|]. cbn [skipF]. destruct (n =? 0) eqn:En.
  - replace n with 0 by lia. rewrite splitN_zero. split; [reflexivity|]. exists []. apply radv_refl. apply F.
  - destruct (rd_some_got (Nat.min (S (buf o k)) (N.to_nat n)) r (fine_clean _ _ _ F) ltac:(lia)) as [r' A E|b x r' Lx A K W|r' A W K|e r' B Eb].
    + pose proof (E o cs F) as E0. rewrite E0. split; [|eauto]. now rewrite (radv_content cs _ _ _ A) in E0.
    + specialize (IH (k + length (b :: x))%nat (n - lenN (b :: x)) r' (radv_fine _ _ _ _ _ A F) ltac:(lia)).
      destruct (skipF f o _ _ r') as [r''|e|e| |]; auto.
      * destruct IH as [E [y A']]. split; [|eexists; eapply radv_trans; eauto].
        rewrite (radv_content cs _ _ _ A), E. symmetry. apply splitN_fst_app. unfold lenN. lia.
      * now apply (radv_breaks _ _ _ _ A).
    + specialize (IH k n r' (radv_fine _ _ _ _ _ A F) ltac:(lia)).
      destruct (skipF f o k n r') as [r''|e|e| |]; auto.
      * destruct IH as [E [y A']]. split; [now rewrite (radv_content cs _ _ _ A)|eexists; eapply radv_trans; eauto].
      * now apply (radv_breaks _ _ _ _ A).
    + exact B.
Qed.

Lemma skip_field_sim o cs m w r : fine o cs r -> sim cs r (rd_skip_field m w (content cs r)) (rd_skip_fieldF o m w r).
Proof.
  intros F. destruct w; cbn [rd_skip_field rd_skip_fieldF].
  - destruct (uv_sim o cs m 8 r F) as [H _]. simcase H; cbn; eauto.
  - destruct (uv_sim o cs m 64 r F) as [H _]. simcase H; cbn [bind bindF]; try (cbn; auto; fail).
    destruct (x <? 2 ^ 63); [|reflexivity]. pose proof (radv_fine _ _ _ _ _ A F) as F0.
    pose proof (skip_sim o cs (rd_fuel r0) 0 x r0 F0 ltac:(unfold rd_fuel, weight; lia)) as S.
    destruct (skipF (rd_fuel r0) o 0 x r0) as [r''|e|e| |]; try contradiction; cbn.
    + destruct S as [-> [z A']]. split; [reflexivity|]. eexists. eapply radv_trans; eauto.
    + now apply (radv_breaks _ _ _ _ A).
Qed.

Lemma tag_sim o cs m r : fine o cs r -> simA cs r (rd_tag m (content cs r)) (rd_tagF m r).
Proof.
  intros F. unfold rd_tag, rd_tagF. destruct (uv_sim o cs m 32 r F) as [H _]. simcase H; cbn [bind bindF]; try (cbn; auto; fail).
  destruct (parse_tag x) as [[fn w]|e| |]; cbn; eauto.
Qed.

(** ** Merging *)

Definition msim (o : lib) (cs : bytes) (mg : merger) (mgF : mergerF) : Prop := forall v r, fine o cs r ->
  simS cs r (mg v (content cs r)) (mgF v r).

Lemma enter_content o cs x r : fst r = None -> fine o cs r ->
  fine o cs (rd_enter x r) /\ content cs (rd_enter x r) = fst (splitN x (content cs r)).
Proof. destruct r as [k s]. cbn. intros -> [C P K]. split; [split; cbn; auto|reflexivity]. Qed.
Lemma enter_breaks size r x : breaks (rd_enter size r) x -> breaks r x.
Proof. intros (e & -> & F & K). exists e. split; [reflexivity|]. split; [exact F|]. intros K'. apply K. cbn. now right. Qed.

Lemma adv_lim_inv n s x s2 : adv (Lim n None s) x s2 ->
  exists s', s2 = Lim (n - lenN x) None s' /\ adv s x s' /\ lenN x <= n.
Proof. intros H. inversion H; subst. eauto. Qed.

Lemma leave_sim o cs size r sub y : fst r = None -> fine o cs r ->
  radv (rd_enter size r) y sub -> content cs sub = [] ->
  exists r' z, rd_leave r sub = OkF r' /\ content cs r' = snd (splitN size (content cs r)) /\ radv r z r'.
Proof.
  intros K F A E. pose proof (radv_content cs _ _ _ A) as Ey. rewrite E, app_nil_r in Ey.
  destruct A as [z [Ha Ez]]. cbn [rd_enter fst snd opt1 app] in Ha, Ez.
  assert (Ks : fst sub = None) by (destruct (fst sub) eqn:Eq; [unfold content in E; rewrite Eq in E; discriminate E|reflexivity]).
  rewrite Ks in Ez. cbn [opt1] in Ez. rewrite app_nil_r in Ez. subst z.
  destruct (adv_lim_inv _ _ _ _ Ha) as [s' [E2 [Hs Hl]]]. unfold rd_leave. rewrite E2. clear E2.
  exists (fst r, s'), y. split; [reflexivity|].
  assert (Er : content cs r = y ++ content cs (fst r, s')).
  { unfold content. rewrite K. cbn [opt1 app fst snd]. now apply adv_bytes. }
  split; [|exists y; split; [exact Hs|cbn [fst snd]; rewrite K; cbn; now rewrite app_nil_r]].
  destruct (splitN_fst_app y (content cs (fst r, s')) size Hl) as [E1 E2]. rewrite <- Er in E1, E2.
  rewrite E2.
  pose proof (enter_content o cs size r K F) as [_ Ec]. rewrite Ey in Ec. rewrite E1 in Ec.
  rewrite <- (app_nil_r y) in Ec at 1. apply app_inv_head in Ec.
  destruct (splitN (size - lenN y) (content cs (fst r, s'))) as [p q] eqn:Es.
  cbn [fst snd] in *. apply splitN_concat in Es. subst p. exact Es.
Qed.

Lemma simS_io {S} cs r (p : S * res bytes) s x : breaks r x -> simS cs r p (s, IoF x).
Proof. intros H. split; [exact H|]. left. cbn. eauto. Qed.

Ltac pairs H := let E := fresh "E" in destruct H as [H E]; cbn [fst snd] in H, E.

Lemma nested_sim o cs m tw mg mgF w : msim o cs mg mgF -> msuf tw mg ->
  forall v r, fine o cs r -> simS cs r (merge_nested m tw mg w v (content cs r)) (merge_nestedF o m tw mgF w v r).
Proof.
  intros Hm Hs v r F. unfold merge_nested, merge_nestedF. destruct (wtype_eqb w tw) eqn:Ew; cbn [negb].
  - destruct w; [now apply Hm|].
    assert (tw = Sized) by (destruct tw; [discriminate Ew|reflexivity]). subst tw.
    unfold rd_nested. destruct (uv_sim o cs m 64 r F) as [H K]. revert K.
    simcase H; intros K; cbn [bind try tryF]; try (split; cbn; auto; fail); try (now apply simS_io).
    specialize (K _ _ eq_refl). pose proof (radv_fine _ _ _ _ _ A F) as F0.
    destruct (enter_content o cs x r0 K F0) as [F1 E1].
    destruct (splitN x (content cs r0)) as [sub after] eqn:Es. cbn [fst] in E1.
    pose proof (Hm v (rd_enter x r0) F1) as HE. rewrite E1 in HE.
    destruct (mg v sub) as [v1 c] eqn:Emg. destruct (mgF v (rd_enter x r0)) as [v2 cF].
    pairs HE. revert Emg. simcase HE; intros Emg; cbn [bind bindF]; try (split; cbn; auto; fail).
    + subst c. assert (Ex : content cs r1 = []) by (now apply Hs in Emg).
      destruct (leave_sim o cs x r0 r1 y0 K F0 A0 Ex) as [r' [z [El [Ec Ha]]]].
      rewrite El. destruct E0 as [[q Eq]| ->]; [congruence|]. split; [|now right]. cbn [snd sim]. rewrite Ex. cbn [app]. rewrite Es in Ec. cbn [snd] in Ec.
      rewrite Ec. split; [reflexivity|]. eexists. eapply radv_trans; eauto.
    + apply simS_io. apply (radv_breaks _ _ _ _ A). eapply enter_breaks. eauto.
  - split; [|now right]. now apply skip_field_sim.
Qed.

Lemma de_nested_sim o cs m tw mg mgF : msim o cs mg mgF -> msuf tw mg ->
  forall d r, fine o cs r -> simA cs r (de_nested m tw mg d (content cs r)) (de_nestedF o m tw mgF d r).
Proof.
  intros Hm Hs d r F. unfold de_nested, de_nestedF.
  pose proof (nested_sim o cs m tw mg mgF tw Hm Hs d r F) as H.
  destruct (merge_nested m tw mg tw d (content cs r)) as [v c], (merge_nestedF o m tw mgF tw d r) as [v' cF].
  pairs H. simcase H; cbn; eauto. destruct E as [[q Eq]| ->]; [congruence|]. eauto.
Qed.

Definition stepsim {S} (o : lib) (cs : bytes) (step : S -> bytes -> S * res bytes) (stepF : S -> reader -> S * resF reader) : Prop :=
  forall s r, fine o cs r -> simS cs r (step s (content cs r)) (stepF s r).

Lemma content_room cs r x r' : radv r x r' -> (length (content cs r') < length (content cs r))%nat ->
  (length (content [] r') < length (content [] r))%nat.
Proof. intros A. rewrite (radv_content cs _ _ _ A), (radv_content [] _ _ _ A), !app_length. lia. Qed.

Lemma loop_sim {S} o cs (step : S -> bytes -> S * res bytes) stepF : stepsim o cs step stepF -> consuming step ->
  forall f g s r, fine o cs r -> (length (content [] r) < f)%nat -> (length (content cs r) <= g)%nat ->
  simS cs r (loop g step s (content cs r)) (loopF f o stepF s r).
Proof.
  intros H Hc. induction f as [|f IH]; intros g s r F L G; [lia|]. cbn [loopF].
  pose proof (rd_eof_sim o cs r F) as He. destruct (rd_eof o r) as [[[|] r']|e|x| |]; try contradiction; cbn [tryF].
  - destruct He as [E A]. rewrite E. replace (loop g step s []) with (s, @Ok bytes []) by (now destruct g).
    split; [|now right]. cbn. rewrite (radv_content cs _ _ _ A) in E. cbn in E. rewrite E. split; [reflexivity|]. eauto.
  - destruct He as [E A]. assert (Ec : content cs r' = content cs r) by (symmetry; exact (radv_content cs _ _ _ A)).
    rewrite <- Ec in E, G |- *. destruct (content cs r') as [|b bs] eqn:Eb; [congruence|].
    destruct g as [|g]; [cbn in G; lia|]. cbn [loop]. apply (simS_adv _ _ _ _ _ _ A).
    pose proof (H s r' (radv_fine _ _ _ _ _ A F)) as Hs. rewrite Eb in Hs. pose proof (Hc s (b :: bs)) as Hx.
    destruct (step s (b :: bs)) as [s1 c], (stepF s r') as [s1' cF]. pairs Hs.
    simcase Hs; cbn [try tryF]; try (split; cbn; auto; fail).
    + destruct E0 as [[q Eq]|E0]; [congruence|]. subst s1'. subst c. specialize (Hx _ _ eq_refl).
      apply (simS_adv _ _ _ _ _ _ A0). apply IH.
      * eapply radv_fine; [exact A0|]. eapply radv_fine; eauto.
      * pose proof (content_room cs _ _ _ A0) as R. rewrite Eb in R. specialize (R Hx).
        rewrite (radv_content [] _ _ _ A) in L. cbn [app] in L. lia.
      * cbn in G, Hx. lia.
    + now apply simS_io.
  - apply simS_io, He.
Qed.

Lemma splitN_le {A} (l : list A) : forall n, (length (fst (splitN n l)) <= length l)%nat.
Proof.
  induction l as [|b l IH]; intros n; cbn [splitN]; [cbn; lia|].
  destruct (n =? 0); [cbn; lia|]. specialize (IH (n - 1)). destruct (splitN (n - 1) l). cbn in *. lia.
Qed.
Lemma arriving_len ev : (length (arriving ev) <= list_sum (map ev_len ev))%nat.
Proof.
  induction ev as [|[b bs|[|e]] ev IH]; cbn [arriving map ev_len list_sum fold_right length]; unfold list_sum in *; try lia.
  cbn [app length]. rewrite app_length. lia.
Qed.
Lemma src_len_spec s : (length (src_bytes [] s) <= src_len s)%nat.
Proof.
  induction s as [ev|n k s IH]; cbn [src_bytes src_len]; [rewrite app_nil_r; apply arriving_len|].
  pose proof (splitN_le (opt1 k ++ src_bytes [] s) n) as H. rewrite app_length in H. destruct k; cbn in *; lia.
Qed.
Lemma rd_fuel_spec r : (length (content [] r) < rd_fuel r)%nat.
Proof.
  unfold content, rd_fuel. rewrite app_length. pose proof (src_len_spec (snd r)). destruct (fst r); cbn; lia.
Qed.

Lemma run_sim {S} o cs (step : S -> bytes -> S * res bytes) stepF : stepsim o cs step stepF -> consuming step ->
  forall s r, fine o cs r -> simS cs r (run step s (content cs r)) (runF o stepF s r).
Proof. intros H Hc s r F. unfold run, runF. apply loop_sim; auto. apply rd_fuel_spec. Qed.

(** ** Every type *)

Lemma opt_step_sim o cs m tw mg mgF d : msim o cs mg mgF -> msuf tw mg -> stepsim o cs (opt_step m tw mg d) (opt_stepF o m tw mgF d).
Proof.
  intros Hm Hs s r F. unfold opt_step, opt_stepF.
  pose proof (nested_sim o cs m tw mg mgF tw Hm Hs (match s with Some x => x | None => d end) r F) as H.
  destruct (merge_nested _ _ _ _ _ _) as [x c], (merge_nestedF _ _ _ _ _ _ _) as [x' cF].
  pairs H. split; [exact H|]. destruct E as [E| ->]; [now left|now right].
Qed.

Lemma vec_step_sim o cs m tw mg mgF d : msim o cs mg mgF -> msuf tw mg -> stepsim o cs (vec_step m tw mg d) (vec_stepF o m tw mgF d).
Proof.
  intros Hm Hs s r F. unfold vec_step, vec_stepF. pose proof (de_nested_sim o cs m tw mg mgF Hm Hs d r F) as H.
  simcase H; cbn [try tryF]; try (split; cbn; eauto; fail); now apply simS_io.
Qed.

Lemma hash_step_sim o cs m kw kmg kmgF kd vw vmg vmgF vd : msim o cs kmg kmgF -> msuf kw kmg -> msim o cs vmg vmgF -> msuf vw vmg ->
  stepsim o cs (hash_step m kw kmg kd vw vmg vd) (hash_stepF o m kw kmgF kd vw vmgF vd).
Proof.
  intros Hm Hs Hm' Hs' s r F. unfold hash_step, hash_stepF. pose proof (de_nested_sim o cs m kw kmg kmgF Hm Hs kd r F) as H.
  simcase H; cbn [try tryF]; try (split; cbn; auto; fail); try (now apply simS_io).
  apply (simS_adv _ _ _ _ _ _ A).
  pose proof (de_nested_sim o cs m vw vmg vmgF Hm' Hs' vd r0 (radv_fine _ _ _ _ _ A F)) as H'.
  simcase H'; cbn [try tryF]; try (split; cbn; eauto; fail); now apply simS_io.
Qed.

Lemma list_step_sim o cs m tw mg mgF fr : msim o cs mg mgF -> msuf tw mg -> stepsim o cs (list_step m tw mg fr) (list_stepF o m tw mgF fr).
Proof.
  intros Hm Hs s r F. unfold list_step, list_stepF.
  pose proof (nested_sim o cs m tw mg mgF tw Hm Hs (fr (lenN s)) r F) as H.
  destruct (merge_nested _ _ _ _ _ _) as [x c], (merge_nestedF _ _ _ _ _ _ _) as [x' cF].
  pairs H. simcase H; cbn [try tryF]; try (split; cbn; eauto; fail); try (now apply simS_io).
  destruct E as [[q Eq]| ->]; [congruence|]. split; cbn; eauto.
Qed.

Lemma map_step_sim o cs m k tw mg mgF fr : msim o cs mg mgF -> msuf tw mg -> stepsim o cs (map_step m k tw mg fr) (map_stepF o m k tw mgF fr).
Proof.
  intros Hm Hs s r F. unfold map_step, map_stepF. destruct (uv_sim o cs m 32 r F) as [H _].
  simcase H; cbn [try tryF]; try (split; cbn; auto; fail); try (now apply simS_io).
  apply (simS_adv _ _ _ _ _ _ A). pose proof (radv_fine _ _ _ _ _ A F) as F0.
  destruct (parse_tag x) as [[fn w]|e| |]; cbn [try tryF liftF]; try (split; [reflexivity|now right]).
  destruct (validate_field_number fn) as [u|e| |]; cbn [try tryF liftF]; try (split; [reflexivity|now right]).
  destruct (key_of_fn k fn) as [u'|e| |]; cbn [try tryF liftF]; try (split; [reflexivity|now right]).
  destruct (assoc fn s) as [v|].
  - pose proof (nested_sim o cs m tw mg mgF tw Hm Hs v r0 F0) as H'.
    destruct (merge_nested _ _ _ _ _ _) as [x1 c], (merge_nestedF _ _ _ _ _ _ _) as [x' cF].
    pairs H'. split; [exact H'|]. destruct E0 as [E0| ->]; [now left|now right].
  - pose proof (nested_sim o cs m tw mg mgF tw Hm Hs (fr fn) r0 F0) as H'.
    destruct (merge_nested _ _ _ _ _ _) as [x1 c], (merge_nestedF _ _ _ _ _ _ _) as [x' cF].
    pairs H'. simcase H'; cbn [try tryF]; try (split; cbn; eauto; fail); try (now apply simS_io).
    destruct E0 as [[q Eq]| ->]; [congruence|]. split; cbn; eauto.
Qed.

Lemma arr_loop_sim o cs m tw mg mgF d : msim o cs mg mgF -> msuf tw mg -> forall l r, fine o cs r ->
  simS cs r (arr_loop m tw mg d l (content cs r)) (arr_loopF o m tw mgF d l r).
Proof.
  intros Hm Hs. induction l as [|x l IH]; intros r F; cbn [arr_loopF].
  - cbn [arr_loop]. split; [|now right]. split; [reflexivity|]. exists []. apply radv_refl. apply F.
  - pose proof (rd_eof_sim o cs r F) as He. destruct (rd_eof o r) as [[[|] r']|e|y| |]; try contradiction; cbn [tryF].
    + destruct He as [E A]. rewrite E. cbn [arr_loop]. split; [|now right]. cbn.
      rewrite (radv_content cs _ _ _ A) in E. cbn in E. rewrite E. split; [reflexivity|]. eauto.
    + destruct He as [E A]. assert (Ec : content cs r' = content cs r) by (symmetry; exact (radv_content cs _ _ _ A)).
      rewrite <- Ec in E |- *. destruct (content cs r') as [|b bs] eqn:Eb; [congruence|]. cbn [arr_loop].
      apply (simS_adv _ _ _ _ _ _ A).
      pose proof (de_nested_sim o cs m tw mg mgF Hm Hs d r' (radv_fine _ _ _ _ _ A F)) as H. rewrite Eb in H.
      simcase H; cbn [try tryF]; try (split; cbn; auto; fail); try (now apply simS_io).
      apply (simS_adv _ _ _ _ _ _ A0). specialize (IH r0 (radv_fine _ _ _ _ _ A0 (radv_fine _ _ _ _ _ A F))).
      destruct (arr_loop _ _ _ _ _ _) as [l1 c], (arr_loopF _ _ _ _ _ _ _) as [l2 cF].
      pairs IH. split; [exact IH|]. destruct E1 as [E1| ->]; [now left|now right].
    + apply simS_io, He.
Qed.

Lemma tup_read_sim o cs m : forall (ts : list ty), Forall (fun t => msim o cs (merge m t) (mergeF o m t)) ts -> forall r, fine o cs r ->
  simA cs r (tup_read m (map (fun t => ((wty t, merge m t), dflt t rt_default)) ts) (content cs r))
            (tup_readF o m (map (fun t => ((wty t, mergeF o m t), dflt t rt_default)) ts) r).
Proof.
  induction 1 as [|t ts Ht _ IH]; intros r F; cbn [map tup_read tup_readF].
  - cbn. split; [reflexivity|]. exists []. apply radv_refl. apply F.
  - pose proof (de_nested_sim o cs m (wty t) _ _ Ht (merge_suf m t) (dflt t rt_default) r F) as H.
    simcase H; cbn [bind bindF]; try (cbn; auto; fail).
    apply (simA_adv _ _ _ _ _ _ A). specialize (IH r0 (radv_fine _ _ _ _ _ A F)).
    simcase IH; cbn [bind bindF]; cbn; eauto.
Qed.

Definition fmergersF (o : lib) (m : mode) (fts : list (finfo * ty)) : list (N * (wtype * mergerF)) :=
  map (fun p : finfo * ty => let '(fi, t) := p in (f_tag fi, (wty t, mergeF o m t))) fts.

Lemma merge_field_sim o cs m fts : Forall (fun p => msim o cs (merge m (snd p)) (mergeF o m (snd p))) fts ->
  forall fs fn w r, fine o cs r ->
  simS cs r (merge_field m (fmergers m fts) fs fn w (content cs r)) (merge_fieldF o m (fmergersF o m fts) fs fn w r).
Proof.
  induction 1 as [|[fi t] fts Ht _ IH]; intros [|[fi' x] fs] fn w r F; cbn [fmergers fmergersF map merge_field merge_fieldF];
    try (split; [reflexivity|now right]).
  - split; [|now right]. now apply skip_field_sim.
  - destruct (fn =? f_tag fi).
    + pose proof (nested_sim o cs m (wty t) _ _ w Ht (merge_suf m t) x r F) as H.
      destruct (merge_nested _ _ _ _ _ _) as [x1 c], (merge_nestedF _ _ _ _ _ _ _) as [x' cF].
      pairs H. split; [exact H|]. destruct E as [E| ->]; [now left|now right].
    + specialize (IH fs fn w r F). fold (fmergers m fts) (fmergersF o m fts).
      destruct (merge_field _ _ _ _ _ _) as [x1 c], (merge_fieldF _ _ _ _ _ _ _) as [x' cF].
      pairs IH. split; [exact IH|]. destruct E as [E| ->]; [now left|now right].
Qed.

Lemma struct_step_sim o cs m fts : Forall (fun p => msim o cs (merge m (snd p)) (mergeF o m (snd p))) fts ->
  stepsim o cs (struct_step m (fmergers m fts)) (struct_stepF o m (fmergersF o m fts)).
Proof.
  intros Hf s r F. unfold struct_step, struct_stepF. pose proof (tag_sim o cs m r F) as H.
  simcase H; cbn [try tryF]; try (split; cbn; auto; fail); try (now apply simS_io).
  destruct x as [fn w]. apply (simS_adv _ _ _ _ _ _ A). apply merge_field_sim; [exact Hf|]. eapply radv_fine; eauto.
Qed.

Lemma mergeF_enum o m st vs tag c r0 fs r :
  mergeF o m (TEnum st vs) (VEnum tag c r0 fs) r =
  tryF (VEnum tag c r0 fs) (uv_deserializeF m 32 r) (fun '(tag', rest) =>
    match find_variant vs tag' with
    | None => (VEnum tag c r0 fs, ErrF InvalidData)
    | Some va =>
        tryF (VEnum tag c r0 fs)
            (liftF (if tag =? tag' then Ok (VEnum tag c r0 fs)
                    else do p <- enum_parent r0; Ok (variant_ctor st va p))) (fun v1 =>
          match v1 with
          | VEnum tag1 c1 r1 fs1 =>
              let '(fs', o) := runF o (struct_stepF o m (fmergersF o m (snd va))) fs1 rest in
              (VEnum tag1 c1 r1 fs', o)
          | _ => (v1, NoFuelF)
          end)
    end).
Proof.
  cbn [mergeF]. destruct (uv_deserializeF m 32 r) as [[tag' rest]|e|x| |]; try reflexivity. cbn [tryF].
  unfold find_variant. induction vs as [|[[vtag vc] fts] vs IH]; [reflexivity|].
  cbn [find fst]. rewrite (N.eqb_sym vtag tag'). destruct (tag' =? vtag); [reflexivity|exact IH].
Qed.

Lemma sim_nofuel {S} cs (s : S) r : simS cs r (s, NoFuel) (s, NoFuelF).
Proof. split; [reflexivity|now right]. Qed.

(** What [run_sim] gives, under a constructor. *)
Lemma sim_under {S T} (k : S -> T) cs r p q : simS cs r p q ->
  simS cs r (let '(x, c) := p in (k x, c)) (let '(x, c) := q in (k x, c)).
Proof. destruct p as [x c], q as [x' cF]. intros [H E]. split; [exact H|]. cbn in *. destruct E as [E| ->]; [now left|now right]. Qed.

Lemma merge_sim o cs m t : msim o cs (merge m t) (mergeF o m t).
Proof.
  induction t as [k| | | |t IH|t IH|n t IH|ts IH|k t IHk IHt|t IH|si fs IH|st vs IH|t IH|k t IH]
    using ty_ind'; intros v r F.
  - destruct v; try (apply sim_nofuel). cbn [merge mergeF]. destruct (ikind_eqb k k0); [|apply sim_nofuel].
    pose proof (int_sim o cs m k r F) as H. simcase H; cbn [try tryF]; try (split; cbn; eauto; fail); now apply simS_io.
  - destruct v; try (apply sim_nofuel). cbn [merge mergeF].
    pose proof (bool_loop_sim o cs (rd_fuel r) r false F ltac:(unfold rd_fuel, weight; lia)) as H. unfold bool_deserialize, bool_deserializeF.
    simcase H; cbn [try tryF]; try (split; cbn; eauto; fail); now apply simS_io.
  - destruct v; try (apply sim_nofuel). cbn [merge mergeF]. pose proof (to_end_sim o cs r F) as H.
    destruct (to_endF o r) as [bs' [r'|e|e| |]]; try contradiction; cbn [tryF]; try (now apply simS_io).
    destruct H as [-> [E A]]. destruct (utf8_valid (content cs r)); (split; [cbn; rewrite ?E; auto|now right]).
  - destruct v; try (apply sim_nofuel). cbn [merge mergeF]. pose proof (to_end_sim o cs r F) as H.
    destruct (to_endF o r) as [bs' [r'|e|e| |]]; try contradiction; try (now apply simS_io).
    destruct H as [-> [E A]]. split; [cbn; rewrite E; auto|now right].
  - destruct v; try (apply sim_nofuel). cbn [merge mergeF]. apply sim_under.
    apply run_sim; [apply opt_step_sim; [exact IH|apply merge_suf]|apply opt_step_consuming, merge_suf|exact F].
  - destruct v; try (apply sim_nofuel). cbn [merge mergeF]. apply sim_under.
    apply run_sim; [apply vec_step_sim; [exact IH|apply merge_suf]|apply vec_step_consuming, merge_suf|exact F].
  - destruct v; try (apply sim_nofuel). cbn [merge mergeF].
    pose proof (arr_loop_sim o cs m (wty t) _ _ (dflt t rt_default) IH (merge_suf m t) l r F) as H.
    destruct (arr_loop _ _ _ _ _ _) as [x1 c1], (arr_loopF _ _ _ _ _ _ _) as [x' cF].
    pairs H. simcase H; cbn [drain drain_resF bind bindF]; try (split; cbn; auto; fail).
    + destruct E as [[q Eq]| ->]; [congruence|]. apply (simS_adv _ _ _ _ _ _ A). split; [|now right].
      apply drain_res_sim. eapply radv_fine; eauto.
    + split; cbn; auto. destruct E as [[q Eq]| ->]; [congruence|now right].
    + now apply simS_io.
    + split; cbn; auto. destruct E as [[q Eq]| ->]; [congruence|now right].
    + split; cbn; auto. destruct E as [[q Eq]| ->]; [congruence|now right].
  - destruct v; try (apply sim_nofuel). cbn [merge mergeF].
    pose proof (tup_read_sim o cs m ts IH r F) as H. simcase H; cbn [try tryF]; try (split; cbn; auto; fail); try (now apply simS_io).
    apply (simS_adv _ _ _ _ _ _ A). split; [|now right]. apply drain_res_sim. eapply radv_fine; eauto.
  - destruct v; try (apply sim_nofuel). cbn [merge mergeF]. apply sim_under.
    apply run_sim; [apply hash_step_sim; auto using merge_suf|apply hash_step_consuming; apply merge_suf|exact F].
  - destruct v; try (apply sim_nofuel). cbn [merge mergeF]. apply sim_under. now apply IH.
  - destruct v as [| | | | | | | | | |c r0 l| | |]; try (apply sim_nofuel). rewrite merge_struct. cbn [mergeF].
    fold (fmergersF o m fs). apply sim_under.
    apply run_sim; [now apply struct_step_sim|apply struct_step_consuming, fields_suf|exact F].
  - destruct v as [| | | | | | | | | | |tag c r0 l| |]; try (apply sim_nofuel). rewrite merge_enum, mergeF_enum.
    destruct (uv_sim o cs m 32 r F) as [H _]. simcase H; cbn [try tryF]; try (split; cbn; auto; fail); try (now apply simS_io).
    apply (simS_adv _ _ _ _ _ _ A). pose proof (radv_fine _ _ _ _ _ A F) as F0.
    destruct (find_variant vs x) as [va|] eqn:Ef; [|split; [reflexivity|now right]].
    assert (Hva : Forall (fun p => msim o cs (merge m (snd p)) (mergeF o m (snd p))) (snd va)).
    { rewrite Forall_forall in IH. apply IH. unfold find_variant in Ef. now apply find_some in Ef. }
    destruct (if tag =? x then Ok (VEnum tag c r0 l) else do p <- enum_parent r0; Ok (variant_ctor st va p)) as [v1|e| |];
      cbn [try tryF liftF]; try (split; [reflexivity|now right]).
    destruct v1; try (apply sim_nofuel). apply sim_under.
    apply run_sim; [now apply struct_step_sim|apply struct_step_consuming, fields_suf|exact F0].
  - destruct v as [| | | | | | | | | | | |r0 l|]; try (apply sim_nofuel). cbn [merge mergeF]. apply sim_under.
    apply run_sim; [apply list_step_sim; [exact IH|apply merge_suf]|apply list_step_consuming, merge_suf|exact F].
  - destruct v as [| | | | | | | | | | | | |r0 l]; try (apply sim_nofuel). cbn [merge mergeF]. apply sim_under.
    apply run_sim; [apply map_step_sim; [exact IH|apply merge_suf]|apply map_step_consuming, merge_suf|exact F].
Qed.

(** A sized value all of which has arrived is read without touching the failure. *)
Lemma nested_complete o m mg mgF v r n rest : msim o [] mg mgF -> fine o [] r ->
  uv_deserialize m 64 (content [] r) = Ok (n, rest) -> n <= lenN rest ->
  forall x, snd (merge_nestedF o m Sized mgF Sized v r) <> IoF x.
Proof.
  intros Hm F U L x. unfold merge_nestedF. cbn [wtype_eqb negb].
  destruct (uv_sim o [] m 64 r F) as [H K]. pose proof (uv_io o m 64 r) as Hio.
  destruct (uv_deserializeF m 64 r) as [[n' r0]|e|e| |]; cbn [tryF snd]; try discriminate.
  - destruct H as [E [y A]]. rewrite U in E. inversion E; subst n' rest. specialize (K _ _ eq_refl).
    pose proof (radv_fine _ _ _ _ _ A F) as F0. destruct (enter_content o [] n r0 K F0) as [F1 _].
    destruct (Hm v (rd_enter n r0) F1) as [H1 _]. destruct (mgF v (rd_enter n r0)) as [v1 [r1|e|e| |]]; cbn [bindF snd] in *; try discriminate.
    + unfold rd_leave. now destruct (snd r1).
    + destruct H1 as (e' & -> & _ & Nc). exfalso. apply Nc. cbn. left. unfold content in L. rewrite K in L. exact L.
  - rewrite (Hio e F eq_refl) in U. discriminate U.
Qed.
