(** Serialization over shared size caches. *)
From Verif Require Import Base Varint WireFmt Utf8 Types Ser Spec ValInd VarintProofs WireProofs SerProofs Conc.

(** * Alone, the programs are the functions of Ser.v *)

Lemma exec_bind {A B} (p : prog A) (f : A -> prog B) h :
  exec (pbind p f) h = do (x, h') <- exec p h; exec (f x) h'.
Proof. revert h. induction p as [r|a k IH|a n p IH]; intros h; [now destruct r|apply IH|apply IH]. Qed.

Lemma exec_unwrap {A} (p : prog A) h : exec (punwrap p) h = unwrap (exec p h).
Proof. revert h. induction p as [r|a k IH|a n p IH]; intros h; [now destruct r|apply IH|apply IH]. Qed.

Lemma exec_size_nested m fn om a v p h :
  exec (size_nestedP m fn om a v p) h = size_nested m fn om a v (exec p h).
Proof.
  unfold size_nestedP, size_nested. rewrite exec_bind. apply bind_ext. intros [n h'].
  rewrite exec_bind. destruct (has_cache v); cbn [exec pset bind].
  all: destruct (is_some fn && om && omissible v n); [reflexivity|].
  all: rewrite exec_bind; cbn [exec]; rewrite bind_assoc; apply bind_ext; intros n'; cbn [bind].
  all: destruct fn as [fn|]; [|reflexivity]; cbn [exec]; rewrite bind_assoc; apply bind_ext; reflexivity.
Qed.

Fixpoint comp_slotsP (m : mode) (a : addr) (i : nat) (acc : N) (sl : list slot) : prog N :=
  match sl with
  | [] => PRet (Ok acc)
  | ((fn, om), x) :: sl' =>
      run n <- punwrap (size_nestedP m fn om (i :: a) x (computeP m (i :: a) x));
      run acc <- PRet (add32 m acc n);
      comp_slotsP m a (S i) acc sl'
  end.

Fixpoint ser_slotsP (m : mode) (a : addr) (i : nat) (sl : list slot) : prog bytes :=
  match sl with
  | [] => PRet (Ok [])
  | ((fn, om), x) :: sl' =>
      run b <- ser_nestedP m fn om (i :: a) x (ser_cachedP m (i :: a) x);
      run bs <- ser_slotsP m a (S i) sl';
      PRet (Ok (b ++ bs))
  end.

(** Programs that do the same. *)
Inductive peq {A} : prog A -> prog A -> Prop :=
| peq_ret r : peq (PRet r) (PRet r)
| peq_get a k k' : (forall n, peq (k n) (k' n)) -> peq (PGet a k) (PGet a k')
| peq_set a n p p' : peq p p' -> peq (PSet a n p) (PSet a n p').

Lemma peq_refl {A} (p : prog A) : peq p p.
Proof. induction p; constructor; auto. Qed.

Lemma peq_trans {A} (p q r : prog A) : peq p q -> peq q r -> peq p r.
Proof. intros H. revert r. induction H; intros r' H'; inversion H'; subst; constructor; auto. Qed.

Lemma peq_bind {A B} (p p' : prog A) (f f' : A -> prog B) :
  peq p p' -> (forall x, peq (f x) (f' x)) -> peq (pbind p f) (pbind p' f').
Proof. intros H Hf. induction H as [[x|e| |]|a k k' H IH|a n p p' H IH]; cbn; try constructor; auto. Qed.

Lemma peq_assoc {A B C} (p : prog A) (f : A -> prog B) (g : B -> prog C) :
  peq (pbind (pbind p f) g) (pbind p (fun x => pbind (f x) g)).
Proof. induction p as [[x|e| |]|a k IH|a n p IH]; cbn; try constructor; auto. apply peq_refl. Qed.

Lemma peq_exec {A} (p q : prog A) : peq p q -> forall h, exec p h = exec q h.
Proof. induction 1; intros h; cbn; auto. Qed.

Ltac loopP :=
  let l' := fresh "l" in let IH := fresh "IH" in
  intros l'; induction l' as [|x l' IH]; intros i acc; [apply peq_refl|];
  try destruct x as [y1 y2];
  cbn [map comp_slotsP islot fslot mslot flat_map hslots app fst snd]; cbn [islot comp_slotsP fst snd];
  apply peq_bind; [apply peq_refl|]; intros n; apply peq_bind; [apply peq_refl|]; intros acc'; try apply IH;
  try (apply peq_bind; [apply peq_refl|]; intros n'; apply peq_bind; [apply peq_refl|]; intros acc''; apply IH).

Lemma computeP_slots m a v : composite v = true -> (forall x, v <> VOpt (Some x)) ->
  peq (computeP m a v) (run acc <- PRet (hdr_size m v); comp_slotsP m a O acc (slots v)).
Proof.
  destruct v as [| | | |[x|]|l|l|l|l| |c r fs|tag c r fs|r l|r es]; intros H NS; try discriminate H;
    try (exfalso; now eapply NS); cbn [computeP slots hdr_size]; try apply peq_refl.
  6: apply peq_bind; [apply peq_refl|]; intros acc0; generalize acc0, O; intros acc1 i0.
  all: try match goal with
       | |- peq ?l (pbind (PRet (Ok 0)) ?f) => let y := eval cbv beta in (f 0) in change (peq l y)
       end.
  all: match goal with
       | |- peq (?F ?i0 ?acc1 ?l) (comp_slotsP ?m ?a ?i0 ?acc1 (?g ?l)) =>
           assert (G : forall l i acc, peq (F i acc l) (comp_slotsP m a i acc (g l))); [|apply G]
       end.
  all: loopP.
Qed.

Ltac loopP' :=
  let l' := fresh "l" in let IH := fresh "IH" in
  intros l'; induction l' as [|x l' IH]; intros i; [apply peq_refl|];
  try destruct x as [y1 y2];
  cbn [map ser_slotsP islot fslot mslot flat_map hslots app fst snd]; cbn [islot ser_slotsP fst snd];
  apply peq_bind; [apply peq_refl|]; intros n;
  try (apply peq_bind; [apply IH|intros; apply peq_refl]).

Lemma ser_slotsP_eq m a v : composite v = true -> (forall x, v <> VOpt (Some x)) ->
  peq (ser_cachedP m a v)
  match v with
  | VEnum tag _ _ _ => run t <- PRet (uv_serialize 32 tag);
                       run bs <- ser_slotsP m a O (slots v);
                       PRet (Ok (t ++ bs))
  | _ => ser_slotsP m a O (slots v)
  end.
Proof.
  destruct v as [| | | |[x|]|l|l|l|l| |c r fs|tag c r fs|r l|r es]; intros H NS; try discriminate H;
    try (exfalso; now eapply NS); cbn [ser_cachedP slots]; try (apply peq_refl).
  6: apply peq_bind; [apply peq_refl|]; intros t; apply peq_bind; [|intros; apply peq_refl].
  all: match goal with
       | |- peq (?F O ?l) (ser_slotsP ?m ?a O (?g ?l)) =>
           assert (G : forall l i, peq (F i l) (ser_slotsP m a i (g l))); [|apply G]
       end.
  all: loopP'.
  eapply peq_trans.
  - apply peq_bind; [apply peq_refl|]. intros b2. apply peq_bind; [apply IH|]. intros bs. apply peq_refl.
  - eapply peq_trans; [|].
    2: { assert (P : forall (p q : prog bytes), peq p q -> peq q p) by (induction 1; constructor; auto).
         apply P. apply peq_assoc. }
    apply peq_bind; [apply peq_refl|]. intros b2.
    assert (P : forall (p q : prog bytes), peq p q -> peq q p) by (induction 1; constructor; auto).
    apply P. apply peq_assoc.
Qed.

Lemma opt_some_or v : (exists x, v = VOpt (Some x)) \/ forall x, v <> VOpt (Some x).
Proof. destruct v as [| | | |[x|]| | | | | | | | |]; try (right; congruence). left; eauto. Qed.

Lemma exec_comp_slots m a : forall sl i acc h,
  (forall s, In s sl -> forall b h, exec (computeP m b (snd s)) h = compute m b (snd s) h) ->
  exec (comp_slotsP m a i acc sl) h = comp_slots m a i acc sl h.
Proof.
  induction sl as [|[[fn om] x] sl IH]; intros i acc h Hs; [reflexivity|].
  cbn [comp_slotsP comp_slots]. rewrite exec_bind, exec_unwrap, exec_size_nested.
  rewrite (Hs _ (or_introl eq_refl)). cbn [snd]. apply bind_ext. intros [n h'].
  rewrite exec_bind. cbn [exec]. rewrite bind_assoc. apply bind_ext. intros acc'. cbn [bind].
  apply IH. intros s Hi. apply Hs. now right.
Qed.

Lemma exec_compute m v : forall a h, exec (computeP m a v) h = compute m a v h.
Proof.
  induction v as [v L|v IH|v C IH] using val_slots_ind; intros a h.
  - destruct v; try discriminate L; reflexivity.
  - apply IH.
  - rewrite Forall_forall in IH. destruct (opt_some_or v) as [[x ->]|NS].
    + cbn [computeP compute]. rewrite exec_unwrap, exec_size_nested. 
      now rewrite (IH (islot x) (or_introl eq_refl)).
    + rewrite (peq_exec _ _ (computeP_slots m a v C NS)), compute_slots by assumption.
      rewrite exec_bind. cbn [exec]. rewrite bind_assoc. apply bind_ext. intros acc. cbn [bind].
      apply exec_comp_slots. intros s Hi b h0. now apply IH.
Qed.

Lemma exec_cached_size m a v h : exec (cached_sizeP m a v) h = cached_size m a v h.
Proof. unfold cached_sizeP, cached_size. destruct (has_cache v); [reflexivity|apply exec_compute]. Qed.

Lemma exec_omissible m a v h : exec (omissible_cachedP m a v) h = omissible_cached m a v h.
Proof.
  unfold omissible_cachedP, omissible_cached.
  destruct v; try reflexivity; rewrite exec_bind, exec_cached_size; apply bind_ext; now intros [n h'].
Qed.

Lemma exec_ser_nested m fn om a v p f h : (forall h, exec p h = f h) ->
  exec (ser_nestedP m fn om a v p) h = ser_nested m fn om a v f h.
Proof.
  intros Hp. unfold ser_nestedP, ser_nested. rewrite exec_bind.
  assert (E : exec (if is_some fn && om then omissible_cachedP m a v else PRet (Ok false)) h =
    (if is_some fn && om then omissible_cached m a v h else Ok (false, h))).
  { destruct (is_some fn && om); [apply exec_omissible|reflexivity]. }
  rewrite E. apply bind_ext. intros [[] h1]; [reflexivity|].
  rewrite exec_bind. cbn [exec]. rewrite bind_assoc. apply bind_ext. intros tb. cbn [bind].
  rewrite exec_bind.
  assert (E2 : exec match vwty v with
                    | Varint => PRet (Ok [])
                    | Sized => run n <- cached_sizeP m a v; PRet (uv_serialize 32 n)
                    end h1 =
    match vwty v with
    | Varint => Ok ([], h1)
    | Sized => do (n, h) <- cached_size m a v h1; do b <- uv_serialize 32 n; Ok (b, h)
    end).
  { destruct (vwty v); [reflexivity|]. rewrite exec_bind, exec_cached_size. apply bind_ext. now intros [n h2]. }
  rewrite E2. apply bind_ext. intros [sb h2]. rewrite exec_bind, Hp. apply bind_ext. now intros [b h3].
Qed.

Lemma exec_ser_slots m a : forall sl i h,
  (forall s, In s sl -> forall b h, exec (ser_cachedP m b (snd s)) h = ser_cached m b (snd s) h) ->
  exec (ser_slotsP m a i sl) h = ser_slots m a i sl h.
Proof.
  induction sl as [|[[fn om] x] sl IH]; intros i h Hs; [reflexivity|].
  cbn [ser_slotsP ser_slots]. rewrite exec_bind.
  rewrite (exec_ser_nested m fn om (i :: a) x _ (ser_cached m (i :: a) x)) by apply (Hs _ (or_introl eq_refl)).
  apply bind_ext. intros [b h1]. rewrite exec_bind, IH by (intros s Hi; apply Hs; now right).
  apply bind_ext. now intros [bs h2].
Qed.

Lemma exec_ser_cached m v : forall a h, exec (ser_cachedP m a v) h = ser_cached m a v h.
Proof.
  induction v as [v L|v IH|v C IH] using val_slots_ind; intros a h.
  - destruct v; try discriminate L; reflexivity.
  - apply IH.
  - rewrite Forall_forall in IH. destruct (opt_some_or v) as [[x ->]|NS].
    + cbn [ser_cachedP ser_cached]. apply exec_ser_nested. intros h0.
      apply (IH (islot x) (or_introl eq_refl)).
    + rewrite (peq_exec _ _ (ser_slotsP_eq m a v C NS)), ser_slots_eq by assumption.
      assert (G : forall h, exec (ser_slotsP m a O (slots v)) h = ser_slots m a O (slots v) h).
      { intros h0. apply exec_ser_slots. intros s Hi b h1. now apply IH. }
      destruct v; try apply G.
      rewrite exec_bind. cbn [exec]. rewrite bind_assoc. apply bind_ext. intros t0. cbn [bind].
      rewrite exec_bind, G. apply bind_ext. now intros [bs h1].
Qed.

Lemma exec_cache_size m a v h : exec (cache_sizeP m a v) h = cache_size m a v h.
Proof.
  unfold cache_sizeP, cache_size. rewrite exec_bind, exec_compute. apply bind_ext. intros [n h'].
  rewrite exec_bind. destruct (has_cache v); reflexivity.
Qed.

Lemma exec_steit_serialize m v h : exec (steit_serializeP m [] v) h = steit_serialize m v h.
Proof.
  unfold steit_serializeP, steit_serialize. rewrite exec_bind, exec_cache_size. apply bind_ext. intros [n h'].
  apply exec_ser_cached.
Qed.

(** * What a thread does when its reads return right values *)

Section Right.
  Variable R : addr -> N -> Prop.     (* the values that are right for a cache *)

  (** Never reads, writes only right values, returns a result. *)
  Fixpoint pure {A} (W : list addr) (p : prog A) (Q : list addr -> A -> Prop) : Prop :=
    match p with
    | PRet (Ok x) => Q W x
    | PRet _ => False
    | PGet _ _ => False
    | PSet a n p => R a n /\ pure (a :: W) p Q
    end.
  (** Reads only what it has written, writes only right values, returns a result. *)
  Fixpoint safe {A} (W : list addr) (p : prog A) (Q : A -> Prop) : Prop :=
    match p with
    | PRet (Ok x) => Q x
    | PRet _ => False
    | PGet a k => In a W /\ forall n, R a n -> safe W (k n) Q
    | PSet a n p => R a n /\ safe (a :: W) p Q
    end.
  (** Writes only right values, whatever it reads. *)
  Fixpoint wr {A} (p : prog A) : Prop :=
    match p with
    | PRet _ => True
    | PGet _ k => forall n, wr (k n)
    | PSet a n p => R a n /\ wr p
    end.

  Lemma pure_bind {A B} (p : prog A) (f : A -> prog B) W Q :
    pure W p (fun W' x => pure W' (f x) Q) -> pure W (pbind p f) Q.
  Proof. revert W. induction p as [[x|e| |]|a k IH|a n p IH]; intros W; cbn; auto. intros [H1 H2]. auto. Qed.

  Lemma pure_safe_bind {A B} (p : prog A) (f : A -> prog B) W Q :
    pure W p (fun W' x => safe W' (f x) Q) -> safe W (pbind p f) Q.
  Proof. revert W. induction p as [[x|e| |]|a k IH|a n p IH]; intros W; cbn; auto; [intros []|]. intros [H1 H2]. auto. Qed.

  Lemma pure_wr_bind {A B} (p : prog A) (f : A -> prog B) W :
    pure W p (fun _ x => wr (f x)) -> wr (pbind p f).
  Proof. revert W. induction p as [[x|e| |]|a k IH|a n p IH]; intros W; cbn; auto; [intros []|]. intros [H1 H2]. eauto. Qed.

  Lemma pure_wr {A} (p : prog A) W Q : pure W p Q -> wr p.
  Proof. revert W. induction p as [[x|e| |]|a k IH|a n p IH]; intros W; cbn; auto; [intros []|]. intros [H1 H2]. eauto. Qed.

  Lemma pure_unwrap {A} (p : prog A) W Q : pure W p Q -> pure W (punwrap p) Q.
  Proof. revert W. induction p as [[x|e| |]|a k IH|a n p IH]; intros W; cbn; auto. intros [H1 H2]. auto. Qed.

  Lemma wr_bind {A B} (p : prog A) (f : A -> prog B) : wr p -> (forall x, wr (f x)) -> wr (pbind p f).
  Proof. induction p as [[x|e| |]|a k IH|a n p IH]; cbn; auto. intros [H1 H2]; auto. Qed.

  Lemma peq_pure {A} (p q : prog A) : peq p q -> forall W Q, pure W q Q -> pure W p Q.
  Proof. induction 1 as [r|a k k' H IH|a n p p' H IH]; intros W Q; cbn; auto. intros [H1 H2]; auto. Qed.
  Lemma peq_safe {A} (p q : prog A) : peq p q -> forall W Q, safe W q Q -> safe W p Q.
  Proof.
    induction 1 as [r|a k k' H IH|a n p p' H IH]; intros W Q; cbn; auto; intros [H1 H2]; split; auto.
  Qed.
  Lemma peq_wr {A} (p q : prog A) : peq p q -> wr q -> wr p.
  Proof. induction 1 as [r|a k k' H IH|a n p p' H IH]; cbn; auto. intros [H1 H2]; auto. Qed.

  (** [R] describes the caches at and below [a]; [W] contains them. *)
  Definition right_at (a : addr) (v : val) : Prop :=
    forall b y, at_addr a v b y -> has_cache y = true -> forall n, R b n <-> n = lenN (enc y).
  Definition cov (W : list addr) (a : addr) (v : val) : Prop :=
    forall b y, at_addr a v b y -> has_cache y = true -> In b W.
  Definition kcov (W : list addr) (a : addr) (v : val) : Prop :=
    forall b y, kids_at a v b y -> has_cache y = true -> In b W.

  Lemma cov_intro W a v : kcov W a v -> (has_cache v = true -> In a W) -> cov W a v.
  Proof.
    intros K O b y H C. destruct (at_cases a v b y H) as [[-> [E _]]|H']; [apply O; congruence|].
    now apply (K b y).
  Qed.
  Lemma cov_kids W a v : cov W a v -> kcov W a v.
  Proof. intros A b y K. apply A. now apply kids_at_at. Qed.
  Lemma cov_incl W W' a v : cov W a v -> incl W W' -> cov W' a v.
  Proof. intros A I b y H C. apply I. now apply (A b y). Qed.
  Lemma kcov_incl W W' a v : kcov W a v -> incl W W' -> kcov W' a v.
  Proof. intros A I b y H C. apply I. now apply (A b y). Qed.
  Lemma right_slot a v j s : nth_error (slots v) j = Some s -> right_at a v -> right_at (j :: a) (snd s).
  Proof. intros E Ra b y H C. apply Ra; [|exact C]. eapply at_slot; eauto. Qed.

  Definition comp_pure (m : mode) (v : val) : Prop :=
    forall a W (Q : list addr -> N -> Prop), right_at a v ->
      (forall W', incl W W' -> kcov W' a v -> Q W' (lenN (enc v))) -> pure W (computeP m a v) Q.

  Lemma size_nestedP_pure m fn om a v W (Q : list addr -> N -> Prop) :
    comp_pure m v -> right_at a v ->
    (match fn with Some f => f <= FIELD_NUMBER_MAX | None => True end) ->
    lenN (slot_enc ((fn, om), v)) < 2 ^ 32 ->
    (forall W', incl W W' -> cov W' a v -> Q W' (lenN (slot_enc ((fn, om), v)))) ->
    pure W (size_nestedP m fn om a v (computeP m a v)) Q.
  Proof.
    intros Hc Ra Hfn Hlen HQ. unfold size_nestedP. apply pure_bind. apply Hc; [exact Ra|].
    intros W1 I1 K1. apply pure_bind.
    assert (G : forall W2, incl W1 W2 -> (has_cache v = true -> In a W2) -> 
      pure W2 (if is_some fn && om && omissible v (lenN (enc v)) then PRet (Ok 0)
               else run size <- PRet match vwty v with
                     | Varint => Ok (lenN (enc v))
                     | Sized => add32 m (lenN (enc v)) (uv_size 32 (lenN (enc v)))
                     end;
                    match fn with
                    | None => PRet (Ok size)
                    | Some fn => PRet (do t <- mk_tag fn (vwty v); add32 m size (uv_size 32 t))
                    end) Q).
    { intros W2 I2 Own.
      assert (HQ2 : Q W2 (lenN (slot_enc ((fn, om), v)))).
      { apply HQ; [eapply incl_tran; eauto|]. apply cov_intro; [eapply kcov_incl; eauto|exact Own]. }
      rewrite omissible_left_out. unfold slot_enc in *.
      destruct (is_some fn && om && left_out v (enc v)); [exact HQ2|].
      assert (Hd : lenN (delimited v (enc v)) < 2 ^ 32).
      { destruct fn; [|exact Hlen]. unfold enc_tagged in Hlen. rewrite lenN_app in Hlen. lia. }
      assert (E : match vwty v with
                  | Varint => Ok (lenN (enc v))
                  | Sized => add32 m (lenN (enc v)) (uv_size 32 (lenN (enc v)))
                  end = Ok (lenN (delimited v (enc v)))).
      { unfold delimited in *. destruct (vwty v); [reflexivity|]. rewrite lenN_app in *.
        rewrite uv_size_32 by lia. rewrite add32_ok by lia. f_equal. lia. }
      rewrite E. cbn [pbind].
      destruct fn as [fn|]; [|exact HQ2].
      rewrite mk_tag_spec by exact Hfn. cbn [bind].
      unfold enc_tagged in *. rewrite lenN_app in *.
      rewrite uv_size_32 by now apply tag_num_bound.
      rewrite add32_ok by lia. cbn [pure].
      replace (lenN (delimited v (enc v)) + lenN (leb128 (tag_num fn (vwty v))))
        with (lenN (leb128 (tag_num fn (vwty v))) + lenN (delimited v (enc v))) by lia. exact HQ2. }
    destruct (has_cache v) eqn:C.
    - cbn [pset pure]. split; [apply (Ra a v); [constructor|exact C|reflexivity]|].
      apply G; [intros b Hb; now right|]. intros _. now left.
    - cbn [pure]. apply G; [apply incl_refl|discriminate].
  Qed.

  Lemma comp_slotsP_pure m a : forall sl i acc W (Q : list addr -> N -> Prop),
    (forall s, In s sl -> fn_ok s /\ (lenN (enc (snd s)) < 2 ^ 32 -> comp_pure m (snd s))) ->
    (forall j s, nth_error sl j = Some s -> right_at ((i + j)%nat :: a) (snd s)) ->
    acc + lenN (flat_map slot_enc sl) < 2 ^ 32 ->
    (forall W', incl W W' -> (forall j s, nth_error sl j = Some s -> cov W' ((i + j)%nat :: a) (snd s)) ->
       Q W' (acc + lenN (flat_map slot_enc sl))) ->
    pure W (comp_slotsP m a i acc sl) Q.
  Proof.
    induction sl as [|[[fn om] x] sl IH]; intros i acc W Q Hs Hr Hlen HQ.
    - cbn [comp_slotsP pure]. replace acc with (acc + lenN (flat_map slot_enc [])) by (cbn; lia).
      apply HQ; [apply incl_refl|]. intros [|j] s E; discriminate E.
    - cbn [flat_map] in *. rewrite lenN_app in *. cbn [comp_slotsP].
      destruct (Hs ((fn, om), x) (or_introl eq_refl)) as [Hfn Hx]. cbn [fn_ok fst snd] in Hfn, Hx.
      apply pure_bind, pure_unwrap. apply size_nestedP_pure.
      + apply Hx. apply (lenN_slot fn om x). lia.
      + specialize (Hr O _ eq_refl). now rewrite Nat.add_0_r in Hr.
      + exact Hfn.
      + lia.
      + intros W1 I1 C1. apply pure_bind. rewrite add32_ok by lia. cbn [pure].
        apply IH.
        * intros s Hi. apply Hs. now right.
        * intros j s E. replace (S i + j)%nat with (i + S j)%nat by lia. now apply Hr.
        * lia.
        * intros W2 I2 C2. rewrite <- N.add_assoc. apply HQ; [eapply incl_tran; eauto|].
          intros [|j] s E.
          -- cbn in E. injection E as <-. rewrite Nat.add_0_r. cbn [snd]. eapply cov_incl; eauto.
          -- replace (i + S j)%nat with (S i + j)%nat by lia. now apply C2.
  Qed.

  Lemma computeP_pure m v : ser_ok v -> lenN (enc v) < 2 ^ 32 -> comp_pure m v.
  Proof.
    induction v as [v L|v IH|v C IH] using val_slots_ind; intros Ok0 Hlen a W Q Ra HQ.
    - assert (NK : kcov W a v).
      { intros b y [i [s [E _]]]. destruct v; try discriminate L; cbn in E; destruct i; discriminate E. }
      specialize (HQ W (incl_refl W) NK).
      inversion Ok0 as [k z Rg|b|s|s|w O'|w C' _ _]; subst; try discriminate L; cbn [computeP enc pure] in *.
      + now rewrite int_size_spec.
      + exact HQ.
      + rewrite N.mod_small by exact Hlen. exact HQ.
      + rewrite N.mod_small by exact Hlen. exact HQ.
      + destruct v; discriminate.
    - inversion Ok0 as [| | | |w O'|w C' _ _]; subst; [|discriminate C'].
      cbn [computeP]. apply (IH O' Hlen); [|exact HQ].
      intros b y H Cy. apply Ra; [now apply at_box|exact Cy].
    - inversion Ok0 as [| | | | |w C' T Hs]; subst; try discriminate C.
      rewrite Forall_forall in IH.
      assert (U : unbox v = v) by (destruct v; try reflexivity; discriminate C).
      assert (Hsl : forall s, In s (slots v) -> fn_ok s /\ (lenN (enc (snd s)) < 2 ^ 32 -> comp_pure m (snd s))).
      { intros s Hi. destruct (Hs s Hi) as [Hf Ho]. split; [exact Hf|]. now apply IH. }
      assert (Hr : forall j s, nth_error (slots v) j = Some s -> right_at (j :: a) (snd s))
        by (intros j s E; eapply right_slot; eauto).
      assert (HK : forall W', (forall j s, nth_error (slots v) j = Some s -> cov W' (j :: a) (snd s)) -> kcov W' a v).
      { intros W' H b y [i [s [E Ha]]]. rewrite U in E. now apply (H i s E). }
      rewrite enc_slots in Hlen, HQ by exact C. rewrite lenN_app in Hlen, HQ.
      destruct (opt_some_or v) as [[x ->]|NS].
      + cbn [computeP slots flat_map hdr app] in *. rewrite app_nil_r in *.
        destruct (Hsl (islot x) (or_introl eq_refl)) as [_ Hx]. cbn [islot snd] in Hx.
        apply pure_unwrap, size_nestedP_pure.
        * apply Hx. apply (lenN_slot None false x). exact Hlen.
        * apply (Hr O (islot x) eq_refl).
        * exact I.
        * exact Hlen.
        * intros W' I' C1. apply HQ; [exact I'|]. apply HK.
          intros [|j] s E; [injection E as <-; exact C1|destruct j; discriminate E].
      + apply (peq_pure _ _ (computeP_slots m a v C NS)). apply pure_bind.
        assert (Hh : hdr_size m v = Ok (lenN (hdr v))).
        { destruct v; try reflexivity. cbn [hdr_size hdr]. cbn [hdr] in Hlen.
          rewrite uv_size_32 by exact T. apply add32_ok. lia. }
        rewrite Hh. cbn [pure]. apply comp_slotsP_pure; auto.
  Qed.

  (** Reading sizes back. *)
  Lemma cached_sizeP_safe {B} m a v W (f : N -> prog B) (Q : B -> Prop) :
    ser_ok v -> lenN (enc v) < 2 ^ 32 -> right_at a v -> cov W a v ->
    (forall W', incl W W' -> safe W' (f (lenN (enc v))) Q) -> safe W (pbind (cached_sizeP m a v) f) Q.
  Proof.
    intros Ok0 Hlen Ra Cv Hf. unfold cached_sizeP. destruct (has_cache v) eqn:C.
    - cbn [pget pbind safe]. split; [apply (Cv a v); [constructor|exact C]|].
      intros n Hn. apply (Ra a v) in Hn; [|constructor|exact C]. subst n. apply Hf, incl_refl.
    - apply pure_safe_bind. apply (computeP_pure m v Ok0 Hlen); [exact Ra|]. intros W' I' _. now apply Hf.
  Qed.

  Lemma cached_sizeP_wr m a v : ser_ok v -> lenN (enc v) < 2 ^ 32 -> right_at a v -> wr (cached_sizeP m a v).
  Proof.
    intros Ok0 Hlen Ra. unfold cached_sizeP. destruct (has_cache v); [cbn; auto|].
    apply (pure_wr _ [] (fun _ _ => True)). apply (computeP_pure m v Ok0 Hlen); auto.
  Qed.

  Definition ser_safe (m : mode) (v : val) : Prop :=
    forall B a W (f : bytes -> prog B) (Q : B -> Prop), right_at a v -> kcov W a v ->
      (forall W', incl W W' -> safe W' (f (enc v)) Q) -> safe W (pbind (ser_cachedP m a v) f) Q.

  Lemma pbind_ret {A} (p : prog A) : peq (pbind p (fun x => PRet (Ok x))) p.
  Proof. induction p as [[x|e| |]|a k IH|a n p IH]; cbn; try constructor; auto. Qed.

  Lemma peq_sym {A} (p q : prog A) : peq p q -> peq q p.
  Proof. induction 1; constructor; auto. Qed.

  Lemma ser_nestedP_safe {B} m fn om a v W (f : bytes -> prog B) (Q : B -> Prop) :
    ser_ok v -> ser_safe m v -> right_at a v -> cov W a v ->
    (match fn with Some f => f <= FIELD_NUMBER_MAX | None => True end) ->
    lenN (slot_enc ((fn, om), v)) < 2 ^ 32 ->
    (forall W', incl W W' -> safe W' (f (slot_enc ((fn, om), v))) Q) ->
    safe W (pbind (ser_nestedP m fn om a v (ser_cachedP m a v)) f) Q.
  Proof.
    intros Ok0 Hser Ra Cv Hfn Hlen Hf. pose proof (lenN_slot fn om v Hlen) as Hl.
    unfold ser_nestedP. eapply peq_safe; [apply peq_assoc|].
    assert (G : forall W', incl W W' -> safe W' 
      (pbind (if is_some fn && om && left_out v (enc v) then PRet (Ok [])
              else
        run tagb <- PRet match fn with
                         | None => Ok []
                         | Some fn => do t <- mk_tag fn (vwty v); uv_serialize 32 t
                         end;
        run sizeb <- match vwty v with
                     | Varint => PRet (Ok [])
                     | Sized => run n <- cached_sizeP m a v; PRet (uv_serialize 32 n)
                     end;
        run body <- ser_cachedP m a v;
        PRet (Ok (tagb ++ sizeb ++ body))) f) Q).
    { intros W1 I1. unfold slot_enc in Hf.
      destruct (is_some fn && om && left_out v (enc v)); [apply Hf; exact I1|].
      assert (Et : match fn with
                   | Some fn => do t <- mk_tag fn (vwty v); uv_serialize 32 t
                   | None => Ok [] end
                   = Ok (match fn with Some fn => leb128 (tag_num fn (vwty v)) | None => [] end)).
      { destruct fn as [fn|]; [|reflexivity]. rewrite mk_tag_spec by exact Hfn. cbn [bind].
        apply uv_serialize_spec; [lia|now apply tag_num_bound]. }
      rewrite Et. cbn [pbind]. eapply peq_safe; [apply peq_assoc|].
      assert (K : forall W2, incl W1 W2 -> safe W2
        (pbind (run body <- ser_cachedP m a v;
                PRet (Ok (match fn with Some fn => leb128 (tag_num fn (vwty v)) | None => [] end ++
                          match vwty v with Varint => [] | Sized => leb128 (lenN (enc v)) end ++ body))) f) Q).
      { intros W2 I2. eapply peq_safe; [apply peq_assoc|]. apply Hser.
        - exact Ra.
        - apply cov_kids. apply (cov_incl W); [exact Cv|eapply incl_tran; eauto].
        - intros W3 I3. cbn [pbind].
          assert (I03 : incl W W3) by (eapply incl_tran; [exact I1|eapply incl_tran; eauto]).
          specialize (Hf W3 I03). unfold enc_tagged, delimited in Hf. destruct fn; destruct (vwty v); exact Hf. }
      destruct (vwty v); [apply (K W1), incl_refl|].
      eapply peq_safe; [apply peq_assoc|]. apply cached_sizeP_safe; auto.
      { now apply (cov_incl W). }
      intros W2 I2. rewrite uv_serialize_spec by lia. cbn [pbind]. now apply K. }
    destruct (is_some fn && om); [|cbn [pbind]; apply (G W), incl_refl].
    cbn [andb] in G. unfold omissible_cachedP.
    assert (E0 : (lenN (enc v) =? 0) = match enc v with [] => true | _ => false end) by (destruct (enc v); reflexivity).
    destruct v; try (cbn [pbind]; apply (G W), incl_refl);
      (eapply peq_safe; [apply peq_assoc|]; apply cached_sizeP_safe; [assumption..|];
       intros W1 I1; cbn [pbind]; rewrite E0; apply (G W1 I1)).
  Qed.

  Lemma ser_slotsP_safe {B} m a : forall sl i W (f : bytes -> prog B) (Q : B -> Prop),
    (forall s, In s sl -> fn_ok s /\ ser_ok (snd s) /\ (lenN (enc (snd s)) < 2 ^ 32 -> ser_safe m (snd s))) ->
    (forall j s, nth_error sl j = Some s -> right_at ((i + j)%nat :: a) (snd s)) ->
    (forall j s, nth_error sl j = Some s -> cov W ((i + j)%nat :: a) (snd s)) ->
    lenN (flat_map slot_enc sl) < 2 ^ 32 ->
    (forall W', incl W W' -> safe W' (f (flat_map slot_enc sl)) Q) ->
    safe W (pbind (ser_slotsP m a i sl) f) Q.
  Proof.
    induction sl as [|[[fn om] x] sl IH]; intros i W f Q Hs Hr Hc Hlen Hf.
    - cbn [ser_slotsP pbind]. apply (Hf W), incl_refl.
    - cbn [flat_map] in *. rewrite lenN_app in *. cbn [ser_slotsP].
      destruct (Hs ((fn, om), x) (or_introl eq_refl)) as [Hfn [Ho Hx]]. cbn [fn_ok fst snd] in Hfn, Ho, Hx.
      eapply peq_safe; [apply peq_assoc|]. apply ser_nestedP_safe.
      + exact Ho.
      + apply Hx. apply (lenN_slot fn om x). lia.
      + specialize (Hr O _ eq_refl). now rewrite Nat.add_0_r in Hr.
      + specialize (Hc O _ eq_refl). now rewrite Nat.add_0_r in Hc.
      + exact Hfn.
      + lia.
      + intros W1 I1. eapply peq_safe; [apply peq_assoc|]. apply IH.
        * intros s Hi. apply Hs. now right.
        * intros j s E. replace (S i + j)%nat with (i + S j)%nat by lia. now apply Hr.
        * intros j s E. apply (cov_incl W); [|exact I1].
          replace (S i + j)%nat with (i + S j)%nat by lia. now apply Hc.
        * lia.
        * intros W2 I2. cbn [pbind]. apply Hf. eapply incl_tran; eauto.
  Qed.

  Lemma ser_cachedP_safe m v : ser_ok v -> lenN (enc v) < 2 ^ 32 -> ser_safe m v.
  Proof.
    induction v as [v L|v IH|v C IH] using val_slots_ind; intros Ok0 Hlen B a W f Q Ra Kv Hf.
    - specialize (Hf W (incl_refl W)).
      inversion Ok0 as [k z Rg|b|s|s|w O'|w C' _ _]; subst; try discriminate L; cbn [ser_cachedP enc pbind] in *;
        try exact Hf.
      + rewrite int_serialize_spec by exact Rg. exact Hf.
      + destruct v; discriminate.
    - inversion Ok0 as [| | | |w O'|w C' _ _]; subst; [|discriminate C'].
      cbn [ser_cachedP]. apply (IH O' Hlen); auto.
      intros b y H Cy. apply Ra; [now apply at_box|exact Cy].
    - inversion Ok0 as [| | | | |w C' T Hs]; subst; try discriminate C.
      rewrite Forall_forall in IH.
      assert (U : unbox v = v) by (destruct v; try reflexivity; discriminate C).
      assert (Hsl : forall s, In s (slots v) -> fn_ok s /\ ser_ok (snd s) /\ (lenN (enc (snd s)) < 2 ^ 32 -> ser_safe m (snd s))).
      { intros s Hi. destruct (Hs s Hi) as [Hfn Ho]. split; [exact Hfn|]. split; [exact Ho|]. now apply IH. }
      assert (Hr : forall j s, nth_error (slots v) j = Some s -> right_at (j :: a) (snd s))
        by (intros j s E; eapply right_slot; eauto).
      assert (Hc : forall j s, nth_error (slots v) j = Some s -> cov W (j :: a) (snd s)).
      { intros j s E b y H. apply Kv. exists j, s. now rewrite U. }
      pose proof (enc_slots v C) as Ev. rewrite Ev in Hlen, Hf. rewrite lenN_app in Hlen.
      destruct (opt_some_or v) as [[x ->]|NS].
      + destruct (Hsl (islot x) (or_introl eq_refl)) as [_ [Ho Hx]]. cbn [islot snd] in Hx, Ho.
        cbn [ser_cachedP]. cbn [slots flat_map hdr app] in Hlen, Hf. rewrite app_nil_r in Hlen, Hf.
        apply ser_nestedP_safe; auto.
        * apply Hx, (lenN_slot None false x). exact Hlen.
        * apply (Hr O (islot x) eq_refl).
        * apply (Hc O (islot x) eq_refl).
      + assert (G : forall B (f : bytes -> prog B) Q, (forall W', incl W W' -> safe W' (f (flat_map slot_enc (slots v))) Q) ->
          safe W (pbind (ser_slotsP m a O (slots v)) f) Q).
        { intros B0 f0 Q0 H0. apply ser_slotsP_safe; auto. lia. }
        eapply peq_safe; [apply peq_bind; [apply (ser_slotsP_eq m a v C NS)|intros; apply peq_refl]|].
        destruct v; try (apply G; exact Hf).
        eapply peq_safe; [apply peq_assoc|]. rewrite uv_serialize_spec by (lia || exact T). cbn [pbind].
        eapply peq_safe; [apply peq_assoc|]. apply G. intros W' I'. cbn [pbind]. now apply Hf.
  Qed.

  Lemma ser_nestedP_wr m fn om a v :
    ser_ok v -> lenN (enc v) < 2 ^ 32 -> wr (ser_cachedP m a v) -> right_at a v ->
    wr (ser_nestedP m fn om a v (ser_cachedP m a v)).
  Proof.
    intros Ok0 Hl Hs Ra. unfold ser_nestedP. pose proof (cached_sizeP_wr m a v Ok0 Hl Ra) as Hc.
    apply wr_bind.
    - destruct (is_some fn && om); [|exact I]. unfold omissible_cachedP.
      destruct v; try exact I; (apply wr_bind; [exact Hc|intros; exact I]).
    - intros []; [exact I|]. apply wr_bind; [exact I|]. intros tb. apply wr_bind.
      + destruct (vwty v); [exact I|]. apply wr_bind; [exact Hc|intros; exact I].
      + intros sb. apply wr_bind; [exact Hs|]. intros; exact I.
  Qed.

  Lemma ser_slotsP_wr m a : forall sl i,
    (forall s, In s sl -> ser_ok (snd s) /\
       (lenN (enc (snd s)) < 2 ^ 32 -> forall b, right_at b (snd s) -> wr (ser_cachedP m b (snd s)))) ->
    (forall j s, nth_error sl j = Some s -> right_at ((i + j)%nat :: a) (snd s)) ->
    lenN (flat_map slot_enc sl) < 2 ^ 32 ->
    wr (ser_slotsP m a i sl).
  Proof.
    induction sl as [|[[fn om] x] sl IH]; intros i Hs Hr Hlen; [exact I|].
    cbn [flat_map] in Hlen. rewrite lenN_app in Hlen. cbn [ser_slotsP].
    destruct (Hs ((fn, om), x) (or_introl eq_refl)) as [Ho Hx]. cbn [snd] in Ho, Hx.
    assert (Hl : lenN (enc x) < 2 ^ 32) by (apply (lenN_slot fn om x); lia).
    assert (Rx : right_at (i :: a) x) by (specialize (Hr O _ eq_refl); now rewrite Nat.add_0_r in Hr).
    apply wr_bind; [apply ser_nestedP_wr; auto|]. intros b. apply wr_bind; [|intros; exact I].
    apply IH.
    - intros s Hi. apply Hs. now right.
    - intros j s E. replace (S i + j)%nat with (i + S j)%nat by lia. now apply Hr.
    - lia.
  Qed.

  Lemma ser_cachedP_wr m v : ser_ok v -> lenN (enc v) < 2 ^ 32 -> forall a, right_at a v -> wr (ser_cachedP m a v).
  Proof.
    induction v as [v L|v IH|v C IH] using val_slots_ind; intros Ok0 Hlen a Ra.
    - destruct v; try discriminate L; exact I.
    - inversion Ok0 as [| | | |w O'|w C' _ _]; subst; [|discriminate C'].
      cbn [ser_cachedP]. apply (IH O' Hlen).
      intros b y H Cy. apply Ra; [now apply at_box|exact Cy].
    - inversion Ok0 as [| | | | |w C' T Hs]; subst; try discriminate C.
      rewrite Forall_forall in IH.
      assert (Hr : forall j s, nth_error (slots v) j = Some s -> right_at (j :: a) (snd s))
        by (intros j s E; eapply right_slot; eauto).
      assert (Hsl : forall s, In s (slots v) -> ser_ok (snd s) /\
       (lenN (enc (snd s)) < 2 ^ 32 -> forall b, right_at b (snd s) -> wr (ser_cachedP m b (snd s)))).
      { intros s Hi. destruct (Hs s Hi) as [Hfn Ho]. split; [exact Ho|]. now apply IH. }
      rewrite (enc_slots v C) in Hlen. rewrite lenN_app in Hlen.
      destruct (opt_some_or v) as [[x ->]|NS].
      + destruct (Hsl (islot x) (or_introl eq_refl)) as [Ho Hx]. cbn [islot snd] in Hx, Ho.
        cbn [slots flat_map hdr app] in Hlen. rewrite app_nil_r in Hlen.
        pose proof (lenN_slot None false x Hlen) as Hl. pose proof (Hr O (islot x) eq_refl) as Rx.
        cbn [ser_cachedP]. apply ser_nestedP_wr; auto.
      + assert (G : wr (ser_slotsP m a O (slots v))) by (apply ser_slotsP_wr; auto; lia).
        apply (peq_wr _ _ (ser_slotsP_eq m a v C NS)).
        destruct v; try exact G.
        apply wr_bind; [exact I|]. intros t. apply wr_bind; [exact G|intros; exact I].
  Qed.

  Lemma steit_serializeP_safe m a v : ser_ok v -> lenN (enc v) < 2 ^ 32 -> right_at a v ->
    safe [] (steit_serializeP m a v) (fun b => b = enc v).
  Proof.
    intros Ok0 Hlen Ra. unfold steit_serializeP, cache_sizeP.
    eapply peq_safe; [apply peq_assoc|]. apply pure_safe_bind.
    apply (computeP_pure m v Ok0 Hlen); [exact Ra|]. intros W I0 K.
    assert (G : forall W', incl W W' -> safe W' (ser_cachedP m a v) (fun b => b = enc v)).
    { intros W' I'. apply (peq_safe _ _ (peq_sym _ _ (pbind_ret _))).
      apply (ser_cachedP_safe m v Ok0 Hlen); [exact Ra|eapply kcov_incl; eauto|reflexivity]. }
    destruct (has_cache v) eqn:C; cbn [pset pbind safe].
    - split; [apply (Ra a v); [constructor|exact C|reflexivity]|]. apply G. intros b Hb. now right.
    - apply G, incl_refl.
  Qed.

  Lemma steit_serializeP_wr m a v : ser_ok v -> lenN (enc v) < 2 ^ 32 -> right_at a v ->
    wr (steit_serializeP m a v).
  Proof.
    intros Ok0 Hlen Ra. unfold steit_serializeP, cache_sizeP. apply wr_bind.
    - apply (pure_wr_bind _ _ []). apply (computeP_pure m v Ok0 Hlen); [exact Ra|]. intros W I0 K.
      destruct (has_cache v) eqn:C; cbn [pset pbind wr]; [|exact I].
      split; [apply (Ra a v); [constructor|exact C|reflexivity]|exact I].
    - intros _. now apply ser_cachedP_wr.
  Qed.

  (** ** One thread's trace *)

  Lemma trace_wr {A} (p q : prog A) tr : trace p tr q -> wr p -> forall a n, In (CWrite a n) tr -> R a n.
  Proof.
    induction 1 as [p|a k n tr q H IH|a n p tr q H IH]; intros Hp b n' Hi; [destruct Hi| |].
    - destruct Hi as [E|Hi]; [discriminate E|]. apply (IH (Hp n) b n' Hi).
    - destruct Hp as [Hn Hp]. destruct Hi as [E|Hi]; [injection E as -> ->; exact Hn|]. exact (IH Hp b n' Hi).
  Qed.

  (** Reads of caches the thread has written itself return right values. *)
  Definition own_right (W : list addr) (tr : list cev) : Prop :=
    forall before a n after, tr = before ++ CRead a n :: after ->
      (In a W \/ exists n', In (CWrite a n') before) -> R a n.

  Lemma own_right_cons W e tr : own_right W (e :: tr) ->
    own_right (match e with CWrite a _ => a :: W | _ => W end) tr.
  Proof.
    intros H before a n after -> D. apply (H (e :: before) a n after); [reflexivity|].
    destruct e as [b nb|b nb].
    - destruct D as [D|[n' D]]; [now left|]. right. exists n'. now right.
    - destruct D as [[->|D]|[n' D]]; [|now left|].
      + right. exists nb. now left.
      + right. exists n'. now right.
  Qed.

  Lemma trace_safe {A} (p q : prog A) tr Q : trace p tr q -> forall W, safe W p Q -> own_right W tr ->
    exists W', incl W W' /\ (forall a n, In (CWrite a n) tr -> In a W') /\ safe W' q Q.
  Proof.
    induction 1 as [p|a k n tr q H IH|a n p tr q H IH]; intros W Hs Ho.
    - exists W. split; [apply incl_refl|]. split; [intros a n []|exact Hs].
    - destruct Hs as [Hi Hk].
      destruct (IH W) as [W' [I' [Hw S']]].
      + apply Hk. apply (Ho [] a n tr eq_refl). now left.
      + apply (own_right_cons W _ tr Ho).
      + exists W'. split; [exact I'|]. split; [|exact S'].
        intros b nb [E|Hb]; [discriminate E|]. now apply (Hw b nb).
    - destruct Hs as [Hn Hp].
      destruct (IH (a :: W) Hp) as [W' [I' [Hw S']]].
      + apply (own_right_cons W _ tr Ho).
      + exists W'. split; [intros b Hb; apply I'; now right|]. split; [|exact S'].
        intros b nb [E|Hb]; [injection E as -> ->; apply I'; now left|]. now apply (Hw b nb).
  Qed.

  (** With right answers every program has one course. *)
  Hypothesis Rfun : forall a n n', R a n -> R a n' -> n = n'.

  Definition reads_right (tr : list cev) : Prop := forall a n, In (CRead a n) tr -> R a n.

  Fixpoint course {A} (p : prog A) (tr : list cev) (x : A) : Prop :=
    match p, tr with
    | PRet r, [] => r = Ok x
    | PGet a k, CRead b n :: tr => a = b /\ R a n /\ course (k n) tr x
    | PSet a n p, CWrite b n' :: tr => a = b /\ n = n' /\ R a n /\ course p tr x
    | _, _ => False
    end.

  Lemma course_trace {A} (p : prog A) tr x : course p tr x -> trace p tr (PRet (Ok x)).
  Proof.
    revert tr. induction p as [r|a k IH|a n p IH]; intros [|[b n'|b n'] tr]; cbn; try (intros []; fail).
    - intros ->. constructor.
    - intros [-> [_ H]]. constructor. auto.
    - intros [-> [-> [_ H]]]. constructor. auto.
  Qed.

  Lemma safe_course {A} (p : prog A) (Q : A -> Prop) : forall W, safe W p Q -> (forall a, In a W -> exists n, R a n) ->
    exists tr x, course p tr x /\ Q x.
  Proof.
    induction p as [r|a k IH|a n p IH]; intros W Hs Hw.
    - destruct r as [x|e| |]; cbn in Hs; try contradiction. exists [], x. cbn. auto.
    - destruct Hs as [Hi Hk]. destruct (Hw a Hi) as [n Hn]. destruct (IH n W (Hk n Hn) Hw) as [tr [x [C Hx]]].
      exists (CRead a n :: tr), x. cbn. auto.
    - destruct Hs as [Hn Hp]. destruct (IH (a :: W) Hp) as [tr [x [C Hx]]].
      + intros b [<-|Hb]; [eauto|auto].
      + exists (CWrite a n :: tr), x. cbn. auto.
  Qed.

  Lemma course_prefix {A} (p q : prog A) tr : trace p tr q -> reads_right tr -> forall full x, course p full x ->
    exists more, full = tr ++ more /\ course q more x.
  Proof.
    induction 1 as [p|a k n tr q H IH|a n p tr q H IH]; intros Hr full x Hc.
    - exists full. auto.
    - destruct full as [|[b n'|b n'] full]; cbn in Hc; try contradiction. destruct Hc as [<- [Hn Hc]].
      rewrite <- (Rfun a n n' (Hr a n (or_introl eq_refl)) Hn) in *.
      destruct (IH (fun b m Hi => Hr b m (or_intror Hi)) full x Hc) as [more [-> Hm]]. exists more. auto.
    - destruct full as [|[b n'|b n'] full]; cbn in Hc; try contradiction. destruct Hc as [<- [<- [Hn Hc]]].
      destruct (IH (fun b m Hi => Hr b m (or_intror Hi)) full x Hc) as [more [-> Hm]]. exists more. auto.
  Qed.
End Right.

(** * Parts of one value *)

Lemma at_fun v : forall a b y y', at_addr a v b y -> at_addr a v b y' ->
  has_cache y = has_cache y' /\ enc y = enc y'.
Proof.
  induction v as [v L|v IH|v C IH] using val_slots_ind; intros a b y y' H H';
    destruct (at_cases a _ b y H) as [[-> [E1 E2]]|K]; destruct (at_cases a _ _ y' H') as [[E0 [E1' E2']]|K'];
    try (split; congruence);
    try (exfalso; destruct (kids_at_below _ _ _ _ K') as [p [i E]]; symmetry in E; now apply app_addr_neq in E);
    try (exfalso; destruct (kids_at_below _ _ _ _ K) as [p [i E]]; rewrite E in E0; now apply app_addr_neq in E0).
  - destruct K as [i [s [E _]]]. destruct v; try discriminate L; cbn in E; destruct i; discriminate E.
  - apply (IH a b); now apply kids_at_at.
  - rewrite Forall_forall in IH. destruct K as [i [s [E K]]]. destruct K' as [j [s' [E' K']]].
    assert (i = j).
    { apply at_prefix in K. apply at_prefix in K'. destruct K as [p ->]. destruct K' as [q Eq].
      now apply app_addr_inj in Eq. }
    subst j. assert (s' = s) by congruence. subst s'.
    assert (U : unbox v = v) by (destruct v; try reflexivity; discriminate C). rewrite U in E.
    apply (IH s (nth_error_In _ _ E) (i :: a) b); auto.
Qed.

Lemma at_trans a v b y : at_addr a v b y -> forall c z, at_addr b y c z -> at_addr a v c z.
Proof.
  induction 1 as [a v|a v b y H IH|a v i s b y E H IH]; intros c z Hz.
  - exact Hz.
  - apply at_box. now apply IH.
  - eapply at_slot; [exact E|]. now apply IH.
Qed.

Lemma at_ser_ok a v b y : at_addr a v b y -> ser_ok v -> lenN (enc v) < 2 ^ 32 -> ser_ok y /\ lenN (enc y) < 2 ^ 32.
Proof.
  induction 1 as [a v|a v b y H IH|a v i s b y E H IH]; intros Ok0 Hlen.
  - auto.
  - apply IH; [|exact Hlen]. inversion Ok0 as [| | | |w O'|w C' _ _]; subst; [exact O'|discriminate C'].
  - apply nth_error_In in E.
    assert (C : composite v = true) by (destruct v; try reflexivity; destruct E).
    inversion Ok0 as [| | | | |w C' T Hs]; subst; try discriminate C.
    apply IH; [apply (Hs s E)|]. rewrite (enc_slots v C), lenN_app in Hlen.
    destruct s as [[fn om] x]. apply (lenN_slot fn om x).
    assert (L : lenN (slot_enc ((fn, om), x)) <= lenN (flat_map slot_enc (slots v))); [|lia].
    clear - E. induction (slots v) as [|s sl IH]; [destruct E|]. cbn [flat_map]. rewrite lenN_app.
    destruct E as [->|E]; [lia|]. specialize (IH E). lia.
Qed.

(** The right value for the cache at an address of [v]. *)
Definition right_for (v : val) (b : addr) (n : N) : Prop :=
  exists y, at_addr [] v b y /\ has_cache y = true /\ n = lenN (enc y).

Lemma right_for_fun v a n n' : right_for v a n -> right_for v a n' -> n = n'.
Proof.
  intros [y [H [C ->]]] [y' [H' [C' ->]]]. destruct (at_fun v _ _ _ _ H H') as [_ ->]. reflexivity.
Qed.

Lemma right_for_at v a x : at_addr [] v a x -> right_at (right_for v) a x.
Proof.
  intros Hx b y Hy C n. pose proof (at_trans _ _ _ _ Hx _ _ Hy) as H. split.
  - intros [y' [H' [C' ->]]]. destruct (at_fun v _ _ _ _ H H') as [_ ->]. reflexivity.
  - intros ->. now exists y.
Qed.

(** * Interleavings *)

Lemma Forall2_nth {A B} (P : A -> B -> Prop) l l' : Forall2 P l l' ->
  forall i x, nth_error l i = Some x -> exists y, nth_error l' i = Some y /\ P x y.
Proof.
  induction 1 as [|x y l l' H F IH]; intros [|i] z E; try discriminate E; cbn in *.
  - injection E as <-. eauto.
  - now apply IH.
Qed.

(** Threads taking turns on one store are coherent. *)
Lemma steps_coherent {A} k h (ps : list (prog A)) h' qs : steps k h ps h' qs ->
  exists trs, length trs = length ps /\ length qs = length ps /\ list_sum (map (@length cev) trs) = k /\
    (forall b, (exists tr, In tr trs /\ In (CWrite b (h' b)) tr) \/
               (h' b = h b /\ forall tr n, In tr trs -> ~ In (CWrite b n) tr)) /\
    (forall i p tr q, nth_error ps i = Some p -> nth_error trs i = Some tr -> nth_error qs i = Some q -> trace p tr q) /\
    coherent h trs.
Proof.
  assert (Nth : forall {X} (l1 l2 : list X) x i y, nth_error (l1 ++ x :: l2) i = Some y ->
            (i = length l1 /\ y = x) \/ (i <> length l1 /\ forall x', nth_error (l1 ++ x' :: l2) i = Some y)).
  { intros X l1 l2 x. induction l1 as [|z l1 IH]; intros [|i] y E; cbn in *.
    - left. split; congruence.
    - right. split; [lia|auto].
    - right. split; [lia|auto].
    - destruct (IH i y E) as [[-> ->]|[N H]]; [now left|right]. split; [lia|exact H]. }
  assert (Split : forall {X} (l : list X) i, (i < length l)%nat -> exists l1 x l2, l = l1 ++ x :: l2 /\ length l1 = i).
  { intros X. induction l as [|x l IH]; intros [|i] L; cbn in L; try lia.
    - now exists [], x, l.
    - destruct (IH i) as [l1 [y [l2 [-> E]]]]; [lia|]. exists (x :: l1), y, l2. cbn. auto. }
  induction 1 as [h ps|k0 h ps h1 ps1 h2 ps2 St Sts IH].
  - exists (map (fun _ => []) ps). rewrite map_length. split; [reflexivity|]. split; [reflexivity|].
    split; [induction ps; cbn; auto|].
    split; [intros b; right; split; [reflexivity|]; intros tr n Hi; apply in_map_iff in Hi;
            destruct Hi as [_ [<- _]]; intros []|].
    split.
    + intros i p tr q E Et Eq. rewrite E in Eq. injection Eq as <-.
      apply nth_error_In, in_map_iff in Et. destruct Et as [_ [<- _]]. constructor.
    + intros tr before a n after Hi E. apply in_map_iff in Hi. destruct Hi as [_ [<- _]].
      destruct before; discriminate E.
  - destruct IH as [trs [Hl1 [Hl2 [Hk [Hst [Ht Hc]]]]]].
    inversion St as [h0 ps0 a k qs0|h0 ps0 a n p qs0]; subst; rewrite app_length in *; cbn [length] in *.
    + destruct (Split _ trs (length ps0)) as [t1 [t [t2 [-> El]]]]; [lia|].
      exists (t1 ++ (CRead a (h1 a) :: t) :: t2). rewrite app_length in *. cbn [length] in *.
      assert (Sum : list_sum (map (@length cev) (t1 ++ (CRead a (h1 a) :: t) :: t2)) = S (list_sum (map (@length cev) (t1 ++ t :: t2))))
        by (rewrite !map_app, !list_sum_app; cbn; lia).
      split; [lia|]. split; [lia|]. split; [lia|]. split; [intros b; destruct (Hst b) as [[tr [Hi Hw]]|[E Hn]];
          [left; apply in_app_or in Hi; destruct Hi as [Hi|[<-|Hi]];
             [exists tr; split; [apply in_or_app; now left|exact Hw]
             |exists (CRead a (h1 a) :: t); split; [apply in_or_app; right; now left|now right]
             |exists tr; split; [apply in_or_app; right; now right|exact Hw]]
          |right; split; [exact E|]; intros tr n Hi; apply in_app_or in Hi; destruct Hi as [Hi|[<-|Hi]];
             [apply Hn, in_or_app; now left
             |intros [E1|Hw]; [discriminate E1|]; revert Hw; apply Hn, in_or_app; right; now left
             |apply Hn, in_or_app; right; now right]]|]. split.
      * intros i p tr q Ep Et Eq.
        destruct (Nth _ _ _ _ _ _ Ep) as [[-> ->]|[Ni Ep']]; destruct (Nth _ _ _ _ _ _ Et) as [[E0 ->]|[Nj Et']]; try lia.
        -- constructor. apply (Ht (length ps0)); [|rewrite <- El|exact Eq].
           ++ rewrite nth_error_app2, Nat.sub_diag by lia. reflexivity.
           ++ rewrite nth_error_app2, Nat.sub_diag by lia. reflexivity.
        -- exact (Ht i p tr q (Ep' _) (Et' _) Eq).
      * intros tr before b n' after Hi E. apply in_app_or in Hi.
        assert (Up : forall (c : addr) m, (exists tr', In tr' (t1 ++ t :: t2) /\ In (CWrite c m) tr') ->
                  exists tr', In tr' (t1 ++ (CRead a (h1 a) :: t) :: t2) /\ In (CWrite c m) tr').
        { intros c m [tr' [Hi' Hw]]. apply in_app_or in Hi'. destruct Hi' as [Hi'|[<-|Hi']].
          - exists tr'. split; [apply in_or_app; now left|exact Hw].
          - exists (CRead a (h1 a) :: t). split; [apply in_or_app; right; now left|now right].
          - exists tr'. split; [apply in_or_app; right; now right|exact Hw]. }
        assert (Keep : In tr (t1 ++ t :: t2) ->
          (exists tr', In tr' (t1 ++ (CRead a (h1 a) :: t) :: t2) /\ In (CWrite b n') tr') \/
            n' = h1 b /\ (forall n'0, ~ In (CWrite b n'0) before)).
        { intros Hi'. destruct (Hc tr before b n' after Hi' E) as [D|D]; [left; now apply Up|now right]. }
        destruct Hi as [Hi|[<-|Hi]].
        -- apply Keep, in_or_app. now left.
        -- destruct before as [|e before]; cbn in E.
           ++ injection E as <- <- <-. right. split; [reflexivity|intros m []].
           ++ injection E as <- E. 
              destruct (Hc t before b n' after) as [D|[D1 D2]]; [apply in_or_app; right; now left|exact E|left; now apply Up|].
              right. split; [exact D1|]. intros m [E1|Hm]; [discriminate E1|]. now apply (D2 m).
        -- apply Keep, in_or_app. right. now right.
    + destruct (Split _ trs (length ps0)) as [t1 [t [t2 [-> El]]]]; [lia|].
      exists (t1 ++ (CWrite a n :: t) :: t2). rewrite app_length in *. cbn [length] in *.
      assert (Sum : list_sum (map (@length cev) (t1 ++ (CWrite a n :: t) :: t2)) = S (list_sum (map (@length cev) (t1 ++ t :: t2))))
        by (rewrite !map_app, !list_sum_app; cbn; lia).
      split; [lia|]. split; [lia|]. split; [lia|]. split; [intros b; destruct (Hst b) as [[tr [Hi Hw]]|[E Hn]];
          [left; apply in_app_or in Hi; destruct Hi as [Hi|[<-|Hi]];
             [exists tr; split; [apply in_or_app; now left|exact Hw]
             |exists (CWrite a n :: t); split; [apply in_or_app; right; now left|now right]
             |exists tr; split; [apply in_or_app; right; now right|exact Hw]]
          |destruct (addr_eqb b a) eqn:Eb;
             [apply addr_eqb_eq in Eb; subst b; rewrite upd_same in E; left; exists (CWrite a n :: t);
              split; [apply in_or_app; right; now left|left; now rewrite E]|];
           assert (Nb : b <> a) by (intros E1; apply addr_eqb_eq in E1; congruence);
           rewrite upd_other in E by exact Nb;
           right; split; [exact E|]; intros tr n' Hi; apply in_app_or in Hi; destruct Hi as [Hi|[<-|Hi]];
             [apply Hn, in_or_app; now left
             |intros [E1|Hw]; [congruence|]; revert Hw; apply Hn, in_or_app; right; now left
             |apply Hn, in_or_app; right; now right]]|]. split.
      * intros i p0 tr q Ep Et Eq.
        destruct (Nth _ _ _ _ _ _ Ep) as [[-> ->]|[Ni Ep']]; destruct (Nth _ _ _ _ _ _ Et) as [[E0 ->]|[Nj Et']]; try lia.
        -- constructor. apply (Ht (length ps0)); [|rewrite <- El|exact Eq].
           ++ rewrite nth_error_app2, Nat.sub_diag by lia. reflexivity.
           ++ rewrite nth_error_app2, Nat.sub_diag by lia. reflexivity.
        -- exact (Ht i p0 tr q (Ep' _) (Et' _) Eq).
      * intros tr before b n' after Hi E. apply in_app_or in Hi.
        assert (New : In (CWrite a n :: t) (t1 ++ (CWrite a n :: t) :: t2)) by (apply in_or_app; right; now left).
        assert (Up : forall (c : addr) m, (exists tr', In tr' (t1 ++ t :: t2) /\ In (CWrite c m) tr') ->
                  exists tr', In tr' (t1 ++ (CWrite a n :: t) :: t2) /\ In (CWrite c m) tr').
        { intros c m [tr' [Hi' Hw]]. apply in_app_or in Hi'. destruct Hi' as [Hi'|[<-|Hi']].
          - exists tr'. split; [apply in_or_app; now left|exact Hw].
          - exists (CWrite a n :: t). split; [exact New|now right].
          - exists tr'. split; [apply in_or_app; right; now right|exact Hw]. }
        assert (Main : forall bf, In (bf ++ CRead b n' :: after) (t1 ++ t :: t2) ->
          (exists tr', In tr' (t1 ++ (CWrite a n :: t) :: t2) /\ In (CWrite b n') tr') \/
          (b <> a /\ n' = h b /\ forall m, ~ In (CWrite b m) bf)).
        { intros bf Hi'. destruct (Hc _ bf b n' after Hi' eq_refl) as [D|[D1 D2]]; [left; now apply Up|].
          destruct (addr_eqb b a) eqn:Eb.
          - apply addr_eqb_eq in Eb. subst b. rewrite upd_same in D1. subst n'. left.
            exists (CWrite a n :: t). split; [exact New|now left].
          - right. assert (Nb : b <> a) by (intros E1; apply addr_eqb_eq in E1; congruence).
            rewrite upd_other in D1 by exact Nb. auto. }
        destruct Hi as [Hi|[<-|Hi]].
        -- destruct (Main before) as [D|[_ D]]; [rewrite <- E; apply in_or_app; now left|now left|now right].
        -- destruct before as [|e before]; cbn in E; [discriminate E|]. injection E as <- E.
           destruct (Main before) as [D|[D0 [D1 D2]]]; [rewrite <- E; apply in_or_app; right; now left|now left|].
           right. split; [exact D1|]. intros m [E1|Hm]; [congruence|]. now apply (D2 m).
        -- destruct (Main before) as [D|[_ D]]; [rewrite <- E; apply in_or_app; right; now right|now left|now right].
Qed.

Lemma exec_steps {A} (p : prog A) : forall h x h', exec p h = Ok (x, h') ->
  exists k, steps k h [p] h' [PRet (Ok x)].
Proof.
  induction p as [r|a k IH|a n p IH]; intros h x h' E; cbn in E.
  - destruct r; try discriminate E. cbn in E. injection E as -> ->. exists O. constructor.
  - destruct (IH _ _ _ _ E) as [j Hj]. exists (S j). econstructor; [apply (StRead h [] a k [])|exact Hj].
  - destruct (IH _ _ _ E) as [j Hj]. exists (S j). econstructor; [apply (StWrite h [] a n p [])|exact Hj].
Qed.

(** * Threads serializing parts of one value *)

Lemma coherent_right v h trs :
  coherent h trs -> (forall tr b n, In tr trs -> In (CWrite b n) tr -> right_for v b n) ->
  forall tr, In tr trs -> own_right (right_for v) [] tr.
Proof.
  intros Hc Hw tr Hi before a n after E D. destruct D as [[]|[n' D]].
  destruct (Hc tr before a n after Hi E) as [[tr' [Hi' Hin]]|[_ N]].
  - now apply (Hw tr').
  - exfalso. now apply (N n').
Qed.

Lemma safe_reads {A} (R : addr -> N -> Prop) (p q : prog A) tr Q : trace p tr q -> forall W, safe R W p Q ->
  own_right R W tr -> reads_right R tr.
Proof.
  induction 1 as [p|a k n tr q H IH|a n p tr q H IH]; intros W Hs Ho b nb Hi.
  - destruct Hi.
  - destruct Hs as [Ha Hk]. assert (Hn : R a n) by (apply (Ho [] a n tr eq_refl); now left).
    destruct Hi as [E|Hi]; [injection E as -> ->; exact Hn|].
    apply (IH W (Hk n Hn) (own_right_cons _ _ _ _ Ho) b nb Hi).
  - destruct Hs as [Hn Hp]. destruct Hi as [E|Hi]; [discriminate E|].
    apply (IH (a :: W) Hp (own_right_cons _ _ _ _ Ho) b nb Hi).
Qed.

Definition thread : Type := addr * val * list cev * prog bytes.
Definition tr_of (th : thread) : list cev := snd (fst th).

Lemma threads_right m v h (ths : list thread) :
  ser_ok v -> lenN (enc v) < 2 ^ 32 ->
  (forall a x tr q, In (a, x, tr, q) ths -> at_addr [] v a x /\ trace (steit_serializeP m a x) tr q) ->
  coherent h (map tr_of ths) ->
  forall a x tr q, In (a, x, tr, q) ths ->
    reads_right (right_for v) tr /\ (forall b n, In (CWrite b n) tr -> right_for v b n).
Proof.
  intros Ok0 Hlen Ht Hc.
  assert (Hw : forall a x tr q, In (a, x, tr, q) ths -> forall b n, In (CWrite b n) tr -> right_for v b n).
  { intros a x tr q Hi. destruct (Ht a x tr q Hi) as [Ha Htr].
    destruct (at_ser_ok _ _ _ _ Ha Ok0 Hlen) as [Ox Lx].
    apply (trace_wr (right_for v) _ _ _ Htr). apply steit_serializeP_wr; auto. now apply right_for_at. }
  assert (Own : forall tr, In tr (map tr_of ths) -> own_right (right_for v) [] tr).
  { apply (coherent_right v h); [exact Hc|]. intros tr b n Hi. apply in_map_iff in Hi.
    destruct Hi as [[[[a x] tr'] q] [<- Hi]]. now apply (Hw a x tr' q). }
  intros a x tr q Hi. split; [|now apply (Hw a x tr q)].
  destruct (Ht a x tr q Hi) as [Ha Htr]. destruct (at_ser_ok _ _ _ _ Ha Ok0 Hlen) as [Ox Lx].
  apply (safe_reads _ _ _ _ _ Htr [] (steit_serializeP_safe _ m a x Ox Lx (right_for_at v a x Ha))).
  apply Own. apply (in_map tr_of) in Hi. exact Hi.
Qed.

(** Whatever the other threads do, a thread makes the accesses it makes when alone. *)
Lemma thread_course m v a x : ser_ok v -> lenN (enc v) < 2 ^ 32 -> at_addr [] v a x ->
  exists full, course (right_for v) (steit_serializeP m a x) full (enc x).
Proof.
  intros Ok0 Hlen Ha. destruct (at_ser_ok _ _ _ _ Ha Ok0 Hlen) as [Ox Lx].
  destruct (safe_course (right_for v) _ _ [] (steit_serializeP_safe _ m a x Ox Lx (right_for_at v a x Ha)))
    as [full [r [C ->]]]; [intros b []|]. eauto.
Qed.

Lemma course_done {A} R (x : A) r tr : course R (PRet r) tr x -> tr = [] /\ r = Ok x.
Proof. destruct tr as [|[]]; cbn; auto; intros []. Qed.

(** A thread that has returned has written every cache of its part. *)
Lemma course_covers m v a x full : ser_ok v -> lenN (enc v) < 2 ^ 32 -> at_addr [] v a x ->
  course (right_for v) (steit_serializeP m a x) full (enc x) ->
  forall b y, at_addr a x b y -> has_cache y = true -> exists n, In (CWrite b n) full.
Proof.
  intros Ok0 Hlen Ha Hfull b y Hy C. destruct (at_ser_ok _ _ _ _ Ha Ok0 Hlen) as [Ox Lx].
  set (h0 := fun _ : addr => lenN (enc y) + 1).
  destruct (cache_size_spec x Ox Lx m a h0) as [h1 [E1 [A1 _]]].
  destruct (ser_cached_spec x Ox Lx m a h1 (all_ok_kids _ _ _ A1)) as [h2 [E2 S2]].
  assert (E : exec (steit_serializeP m a x) h0 = Ok (enc x, h2)).
  { unfold steit_serializeP. rewrite exec_bind, exec_cache_size, E1. cbn [bind]. now rewrite exec_ser_cached. }
  destruct (exec_steps _ _ _ _ E) as [k St].
  destruct (steps_coherent _ _ _ _ _ St) as [trs [L1 [_ [_ [Hst [Htr Hc]]]]]].
  destruct trs as [|tr [|]]; try discriminate L1.
  pose proof (Htr O _ _ _ eq_refl eq_refl eq_refl) as T. 
  destruct (threads_right m v h0 [(a, x, tr, PRet (Ok (enc x)))] Ok0 Hlen) with (a := a) (x := x) (tr := tr) (q := @PRet bytes (Ok (enc x))) as [Hr _].
  { intros a' x' tr' q' [Eq|[]]. injection Eq as <- <- <- <-. auto. }
  { exact Hc. }
  { now left. }
  destruct (course_prefix _ (right_for_fun v) _ _ _ T Hr _ _ Hfull) as [more [-> Hm]].
  apply course_done in Hm. destruct Hm as [-> _]. rewrite app_nil_r.
  destruct (Hst b) as [[tr' [[<-|[]] Hw]]|[Eb _]]; [eauto|].
  exfalso. assert (Eb' : h2 b = lenN (enc y)) by (rewrite S2; now apply (A1 b y)).
  rewrite Eb' in Eb. unfold h0 in Eb. lia.
Qed.
