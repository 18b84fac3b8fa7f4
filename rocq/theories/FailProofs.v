(** Operations on loggers that may fail are those of State.v up to the call that fails. *)
From Verif Require Import Base Varint WireFmt Utf8 Types Ser Spec De Log State StateSpec ValInd VarintProofs WireProofs SerProofs
  TypeProofs EqProofs DeProofs RoundTrip NormProofs LogProofs TreeProofs CohProofs HandleProofs OpProofs ExecProofs Fail.

Section Loggers.
  Context {I : Type} (f : logfn I) (m : mode).
  Notation lm_calls := (lm_calls f m). Notation play := (play f m).

  (** ** Calls one after another *)

  Lemma lm_calls_app a b : forall w, lm_calls (a ++ b) w = lbind (lm_calls a) (fun _ => lm_calls b) w.
  Proof.
    induction a as [|e a IH]; intros w; [reflexivity|]. cbn [app Fail.lm_calls]. unfold lbind in *.
    destruct (lm_call f m e w) as [w' [[]|x| |]]; auto.
  Qed.
  Definition plays {A} (x : LM I A) (y : M A) : Prop := forall w, x w = play y w.

  Lemma plays_ret {A} (a : A) : plays (lret a) (mret a).
  Proof. intros w. reflexivity. Qed.
  Lemma plays_lift {A} (r : res A) : plays (llift r) (mlift r).
  Proof. intros w. reflexivity. Qed.
  Lemma plays_play {A} (y : M A) : plays (play y) y.
  Proof. intros w. reflexivity. Qed.
  Lemma plays_bind {A B} (x : LM I A) (y : M A) (k : A -> LM I B) (k' : A -> M B) :
    plays x y -> (forall a, plays (k a) (k' a)) -> plays (lbind x k) (mbind y k').
  Proof.
    intros P K w. unfold lbind at 1. rewrite P. destruct y as [ev [a|e| |]]; unfold play, Fail.play; cbn [fst snd mbind].
    - pose proof (K a) as Ka. unfold plays, Fail.play in Ka. destruct (k' a) as [ev' r] eqn:Ek. cbn [fst snd] in *. unfold lbind at 1 2 in |- *. unfold llift at 1.
      rewrite (lm_calls_app ev ev'). unfold lbind. destruct (lm_calls ev w) as [w' [[]|x'| |]]; try reflexivity. rewrite Ka. reflexivity.
    - unfold lbind, llift. destruct (lm_calls ev w) as [w' [[]|x'| |]]; reflexivity.
    - unfold lbind, llift. destruct (lm_calls ev w) as [w' [[]|x'| |]]; reflexivity.
    - unfold lbind, llift. destruct (lm_calls ev w) as [w' [[]|x'| |]]; reflexivity.
  Qed.
  Lemma plays_call ev : plays (lm_call f m ev) ([ev], Ok tt).
  Proof. intros w. unfold Fail.play. cbn. unfold lbind, lret, llift. destruct (lm_call f m ev w) as [w' [[]|x| |]]; reflexivity. Qed.
  Lemma plays_log r e : plays (lm_log_entry f r e) (rt_log_entry r e).
  Proof. apply plays_bind; [apply plays_lift|]. intros a. exact (plays_call (LLog (rt_log r) a)). Qed.
  Lemma plays_paused r fn cb : plays (call_pausedF f m r fn cb) (call_paused r fn cb).
  Proof.
    apply plays_bind; [exact (plays_call (LPause _))|]. intros _. apply plays_bind; [apply plays_play|]. intros x.
    apply plays_bind; [exact (plays_call (LUnpause _))|]. intros _. apply plays_ret.
  Qed.
  (** Two entries under one lock. *)
  Lemma plays_multi r e1 e2 : plays (lm_log_multi f r [e1; e2]) ([LLog (rt_log r) e1; LLog (rt_log r) e2], Ok tt).
  Proof.
    intros w. unfold Fail.play. cbn [fst snd Fail.lm_calls lm_call]. unfold lm_log_multi, lm_log, lbind, with_lock, lret, llift. cbn [rt_log log_multi].
    destruct (nth_error w (N.to_nat (rt_log r))) as [[L p]|] eqn:E; [|reflexivity]. cbn [c_poisoned c_logger].
    destruct p; [reflexivity|]. destruct (rl_log f L e1) as [L1 [[]|x| |]]; cbn [unwrap is_panic]; try reflexivity.
    rewrite (nth_set_same w _ _ _ E). cbn [c_poisoned c_logger].
    destruct (rl_log f L1 e2) as [L2 [[]|x| |]]; cbn [unwrap is_panic]; now rewrite TreeProofs.set_set.
  Qed.

  (** ** Operations *)

  (** Ends as [y] does if all its calls are taken, else with [alt] and the failure. *)
  Definition ends {B} (y : val * M B) (alt : val) (w : world I) : val * (world I * res B) :=
    match lm_calls (fst (snd y)) w with
    | (w', Ok _) => (fst y, (w', snd (snd y)))
    | (w', Err e) => (alt, (w', Err e)) | (w', Panic) => (alt, (w', Panic)) | (w', NoFuel) => (alt, (w', NoFuel))
    end.
  Definition playsV {B} (x : VM I B) (y : val * M B) (alt : val) : Prop := forall w, x w = ends y alt w.

  Lemma playsV_ret {B} v (r : res B) alt : playsV (vret v r) (v, mlift r) alt.
  Proof. intros w. reflexivity. Qed.
  Lemma playsV_try {A B} v (x : LM I A) (y : M A) (k : A -> VM I B) (k' : A -> val * M B) :
    plays x y -> (forall a, playsV (k a) (k' a) v) -> playsV (ltry v x k) (mtry v y k') v.
  Proof.
    intros P K w. unfold ltry. rewrite P. destruct y as [ev [a|e| |]]; unfold Fail.play, ends; cbn [fst snd mtry].
    - pose proof (K a) as Ka. unfold playsV, ends in Ka. destruct (k' a) as [v' [ev' r]] eqn:Ek. cbn [fst snd] in *.
      rewrite (lm_calls_app ev ev'). unfold lbind, llift. destruct (lm_calls ev w) as [w' [[]|x'| |]]; try reflexivity. apply Ka.
    - unfold lbind, llift. destruct (lm_calls ev w) as [w' [[]|x'| |]]; reflexivity.
    - unfold lbind, llift. destruct (lm_calls ev w) as [w' [[]|x'| |]]; reflexivity.
    - unfold lbind, llift. destruct (lm_calls ev w) as [w' [[]|x'| |]]; reflexivity.
  Qed.

  Lemma set_field_plays h r fs rb fn get get' : plays get get' ->
    playsV (set_fieldF f m h r fs rb fn get) (set_field m h r fs rb fn get') (rb fs).
  Proof.
    intros P. unfold set_fieldF, set_field. destruct (find_field fn fs) as [[fi x0]|]; [|apply playsV_ret].
    apply playsV_try; [exact P|]. intros x. destruct (f_state fi); [|apply playsV_ret].
    apply playsV_try; [apply plays_log|]. intros _. apply playsV_ret.
  Qed.
  Lemma set_value_plays r fs fn x : plays (set_valueF r fs fn x) (set_value r fs fn x).
  Proof. unfold set_valueF, set_value. destruct (find_field fn fs) as [[fi x0]|]; [apply plays_ret|apply plays_lift]. Qed.
  Lemma set_value_with_plays r fs fn cb : plays (set_value_withF f m r fs fn cb) (set_value_with r fs fn cb).
  Proof.
    unfold set_value_withF, set_value_with. destruct (find_field fn fs) as [[fi x0]|]; [|apply plays_lift].
    destruct (f_state fi); [apply plays_paused|apply plays_lift].
  Qed.
  Lemma reset_plays h t tag v : playsV (reset_variantF f m h t tag v) (reset_variant m h t tag v) v.
  Proof.
    unfold reset_variantF, reset_variant. destruct t as [| | | | | | | | | | |st vs| |]; try apply playsV_ret. destruct v as [| | | | | | | | | | |tag0 c [r|] fs| |]; try apply playsV_ret.
    destruct (tag0 =? tag); [apply playsV_ret|]. destruct (find_variant vs tag) as [va|]; [|apply playsV_ret].
    apply playsV_try; [apply plays_lift|]. intros p. apply playsV_try; [apply plays_log|]. intros _. apply playsV_ret.
  Qed.
  Lemma pop_plays r l : playsV (list_popF f r l) (list_pop r l) (VList r l).
  Proof. unfold list_popF, list_pop. destruct (rev l); [apply playsV_ret|]. apply playsV_try; [apply plays_log|]. intros _. apply playsV_ret. Qed.
  Lemma push_plays h r l cb : playsV (list_push_withF f m h r l cb) (list_push_with m h r l cb) (VList r l).
  Proof.
    apply playsV_try; [apply plays_paused|]. intros x. apply playsV_try; [apply plays_log|]. intros _. apply playsV_ret.
  Qed.
  Lemma insert_plays h r es k x : playsV (map_insertF f m h r es k x) (map_insert m h r es k x) (VMap r es).
  Proof. apply playsV_try; [apply plays_log|]. intros _. apply playsV_ret. Qed.
  (** A failure after the list has changed cannot come from a logger. *)
  Lemma playsV_quiet {A B} v alt (r : res A) (k : A -> VM I B) (k' : A -> val * M B) :
    (forall a, playsV (k a) (k' a) alt) -> playsV (ltry v (llift r) k) (mtry v (mlift r) k') alt.
  Proof.
    intros K w. unfold ltry, llift, ends. destruct r as [a|e| |]; cbn [mtry mlift fst snd]; try reflexivity.
    pose proof (K a w) as Ka. unfold ends in Ka. destruct (k' a) as [v' [ev' r']]. exact Ka.
  Qed.
  Lemma swap_plays h r l i : playsV (list_swap_removeF f m h r l i) (list_swap_remove m h r l i) (VList r l).
  Proof.
    unfold list_swap_removeF, list_swap_remove. destruct (lenN l <=? i); [apply playsV_ret|]. destruct (i =? lenN l - 1); [apply pop_plays|].
    destruct (nth_error l (N.to_nat i)) as [x|]; [|apply playsV_ret]. destruct (rev l) as [|z l0]; [apply playsV_ret|].
    apply playsV_try; [apply plays_bind; [apply plays_lift|intros e2; apply plays_multi]|]. intros _.
    destruct (vwty z); [apply playsV_ret|]. apply playsV_quiet. intros rt'. apply playsV_ret.
  Qed.

  (** The switch of variant an operation makes first. *)
  Definition switch (h : store) (t : ty) (o : op) (v : val) : val * M unit :=
    match o, v with
    | OVSet tag _ _, VEnum _ _ (Some _) _ | OVSetWith tag _ _, VEnum _ _ (Some _) _ => reset_variant m h t tag v
    | _, _ => (v, mret tt)
    end.
  (** What an operation leaves when a logger fails: as before, or with only the variant switched. *)
  Definition left_by (h : store) (t : ty) (o : op) (v : val) (w : world I) : val :=
    match lm_calls (fst (snd (switch h t o v))) w with (_, Ok _) => fst (switch h t o v) | _ => v end.

  Lemma then_plays {B} v (x : VM I unit) (y : val * M unit) (k : val -> VM I B) (k' : val -> val * M B) :
    playsV x y v -> (forall u, playsV (k u) (k' u) u) ->
    forall w, vthen x k w = ends (mthen y k') (match lm_calls (fst (snd y)) w with (_, Ok _) => fst y | _ => v end) w.
  Proof.
    intros P K w. unfold vthen. rewrite P. unfold ends, mthen. destruct y as [u [ev r]]. cbn [fst snd].
    destruct r as [[]|e| |]; cbn [mtry fst snd].
    - pose proof (K u) as Ku. unfold playsV, ends in Ku. destruct (k' u) as [v' [ev' r]]. cbn [fst snd] in *. rewrite lm_calls_app. unfold lbind, ltry.
      destruct (lm_calls ev w) as [w' [[]|x'| |]]; try reflexivity. apply Ku.
    - destruct (lm_calls ev w) as [w' [[]|x'| |]]; reflexivity.
    - destruct (lm_calls ev w) as [w' [[]|x'| |]]; reflexivity.
    - destruct (lm_calls ev w) as [w' [[]|x'| |]]; reflexivity.
  Qed.

  Lemma op_plays h t o v w : apply_opF f m h t o v w = ends (apply_op m h t o v) (left_by h t o v w) w.
  Proof.
    assert (G : forall (x : VM I oret) y alt, playsV x y alt -> left_by h t o v w = alt -> x w = ends y (left_by h t o v w) w) by (intros x y alt P ->; apply P).
    destruct o as [fn x|fn cb|tag fn x|tag fn cb|x|cb| |i|k x|k cb|k]; destruct v as [| | | | | | | | | |c [r|] fs|tag0 c [r|] fs|r l|r es]; cbn [apply_opF apply_op];
      try (eapply G; [apply playsV_ret|reflexivity]).
    - eapply G; [apply set_field_plays, set_value_plays|reflexivity].
    - eapply G; [apply set_field_plays, set_value_with_plays|reflexivity].
    - unfold left_by. cbn [switch]. apply then_plays; [apply reset_plays|]. intros u. destruct u as [| | | | | | | | | | |tag1 c1 [r1|] fs1| |]; try apply playsV_ret.
      apply set_field_plays, set_value_plays.
    - unfold left_by. cbn [switch]. apply then_plays; [apply reset_plays|]. intros u. destruct u as [| | | | | | | | | | |tag1 c1 [r1|] fs1| |]; try apply playsV_ret.
      apply set_field_plays, set_value_with_plays.
    - eapply G; [apply push_plays|reflexivity].
    - eapply G; [apply push_plays|reflexivity].
    - eapply G; [apply pop_plays|reflexivity].
    - eapply G; [apply swap_plays|reflexivity].
    - eapply G; [apply insert_plays|reflexivity].
    - eapply G; [apply playsV_try; [apply plays_paused|intros x; apply insert_plays]|reflexivity].
    - eapply G; [apply playsV_try; [apply plays_log|intros _; apply playsV_ret]|reflexivity].
  Qed.
End Loggers.

(** ** Loggers that take entries or refuse them *)

Section Taken.
  Context {I : Type} (f : logfn I) (m : mode) (taken : I -> list entry) (H : keeps_count f taken).
  Notation lm_calls := (lm_calls f m).

  Lemma feed_grows lg b n ev c k : feed m lg (mkRL b n) ev = Ok (mkRL c k) -> exists d, c = b ++ d.
  Proof.
    destruct ev as [l e|l|l]; cbn [feed]; destruct (l =? lg); intros E;
      try (inversion E; subst; exists []; now rewrite app_nil_r).
    - unfold rl_log in E. cbn [rl_paused rl_inner] in E. destruct (n =? 0); cbn in E; inversion E; subst; eauto. exists []. now rewrite app_nil_r.
    - unfold rl_pause in E. cbn [rl_paused rl_inner] in E. destruct (add32 m n 1); cbn in E; inversion E; subst. exists []. now rewrite app_nil_r.
  Qed.
  Lemma feeds_grow lg evs : forall b n c k, feeds m lg (mkRL b n) evs = Ok (mkRL c k) -> exists d, c = b ++ d.
  Proof.
    induction evs as [|ev evs IH]; intros b n c k E; cbn [feeds] in E.
    - inversion E; subst. exists []. now rewrite app_nil_r.
    - destruct (feed m lg (mkRL b n) ev) as [[b' n']|x| |] eqn:F; cbn [bind] in E; try discriminate E.
      destruct (feed_grows _ _ _ _ _ _ F) as [d ->]. destruct (IH _ _ _ _ E) as [d' ->]. exists (d ++ d'). now rewrite app_assoc.
  Qed.

  Lemma calls_taken lg evs : Forall (on lg) evs -> forall b n es k, feeds m lg (mkRL b n) evs = Ok (mkRL (b ++ bufd es) k) ->
    forall w i, nth_error w (N.to_nat lg) = Some (mkCell (mkRL i n) false) ->
    (exists i', lm_calls evs w = (set_nth w (N.to_nat lg) (mkCell (mkRL i' k) false), Ok tt) /\ taken i' = taken i ++ es) \/
    (exists i' p' es1 e es2, lm_calls evs w = (set_nth w (N.to_nat lg) (mkCell (mkRL i' 0) p'), Panic) /\
       failed f i' p' /\ es = es1 ++ e :: es2 /\ taken i' = taken i ++ es1).
  Proof.
    induction 1 as [|ev evs On Ons IH]; intros b n es k E w i Ei; cbn [feeds] in E.
    - injection E as Eb <-. left. exists i. cbn. rewrite (set_nth_same _ _ _ Ei). split; [reflexivity|].
      assert (En : bufd es = []) by (apply (app_inv_head b); now rewrite app_nil_r). destruct es; [now rewrite app_nil_r|discriminate En].
    - destruct ev as [l e|l|l]; cbn in On; subst l; cbn [feed] in E; rewrite N.eqb_refl in E; cbn [Fail.lm_calls lm_call].
      + unfold rl_log in E. cbn [rl_paused rl_inner buf_log] in E. unfold lbind, lm_log, with_lock. cbn [rt_log]. rewrite Ei. cbn [c_poisoned c_logger]. unfold rl_log. cbn [rl_paused rl_inner].
        destruct (n =? 0) eqn:N0.
        * cbn [bind] in E. apply N.eqb_eq in N0. subst n. pose proof (H i e) as He. destruct (f i e) as [i1 [[]|x| |]] eqn:Fe; cbn [unwrap is_panic].
          -- destruct (feeds_grow _ _ _ _ _ _ E) as [d Ed]. rewrite <- app_assoc in Ed. apply app_inv_head in Ed.
             destruct es as [|e0 es]; [discriminate Ed|]. cbn [bufd map] in Ed. injection Ed as E0 Ed. subst e0.
             change (bufd (e :: es)) with ([(e, fresh_store)] ++ bufd es) in E. rewrite app_assoc in E.
             pose proof (nth_set_same w _ (mkCell (mkRL i1 0) false) _ Ei) as E1.
             destruct (IH _ _ _ _ E _ i1 E1) as [(i' & R & T)|(i' & p' & es1 & e' & es2 & R & Fl & Es & T)]; rewrite R, TreeProofs.set_set.
             ++ left. exists i'. split; [reflexivity|]. rewrite T, He, <- app_assoc. reflexivity.
             ++ right. exists i', p', (e :: es1), e', es2. split; [reflexivity|]. split; [exact Fl|]. split; [now rewrite Es|]. rewrite T, He, <- app_assoc. reflexivity.
          -- right. destruct (feeds_grow _ _ _ _ _ _ E) as [d Ed]. rewrite <- app_assoc in Ed. apply app_inv_head in Ed.
             destruct es as [|e0 es]; [discriminate Ed|]. injection Ed as E0 Ed. subst e0.
             exists i1, false, [], e, es. split; [reflexivity|]. split; [|split; [reflexivity|now rewrite app_nil_r]]. exists i, e, (Err x). rewrite Fe. repeat split; congruence.
          -- right. destruct (feeds_grow _ _ _ _ _ _ E) as [d Ed]. rewrite <- app_assoc in Ed. apply app_inv_head in Ed.
             destruct es as [|e0 es]; [discriminate Ed|]. injection Ed as E0 Ed. subst e0.
             exists i1, true, [], e, es. split; [reflexivity|]. split; [|split; [reflexivity|now rewrite app_nil_r]]. exists i, e, Panic. rewrite Fe. repeat split; congruence.
          -- contradiction.
        * cbn [bind unwrap is_panic] in *. rewrite (set_nth_same _ _ _ Ei). exact (IH _ _ _ _ E w i Ei).
      + unfold rl_pause in E. cbn [rl_paused rl_inner] in E. unfold lbind, lm_pause, with_lock. rewrite Ei. cbn [c_poisoned c_logger]. unfold rl_pause. cbn [rl_paused rl_inner].
        destruct (add32 m n 1) as [n1|x| |] eqn:A; cbn [bind] in *; try discriminate E. cbn [is_panic].
        pose proof (nth_set_same w _ (mkCell (mkRL i n1) false) _ Ei) as E1.
        destruct (IH _ _ _ _ E _ i E1) as [(i' & R & T)|(i' & p' & es1 & e' & es2 & R & Fl & Es & T)]; rewrite R, TreeProofs.set_set.
        * left. eauto.
        * right. eauto 10.
      + cbn [bind] in E. unfold rl_unpause in E. cbn [rl_paused rl_inner snd] in E. unfold lbind, lm_unpause, with_lock. rewrite Ei. cbn [c_poisoned c_logger is_panic]. unfold rl_unpause. cbn [rl_paused rl_inner snd].
        set (n1 := if 0 <? n then n - 1 else n) in *. pose proof (nth_set_same w _ (mkCell (mkRL i n1) false) _ Ei) as E1.
        destruct (IH _ _ _ _ E _ i E1) as [(i' & R & T)|(i' & p' & es1 & e' & es2 & R & Fl & Es & T)]; rewrite R, TreeProofs.set_set.
        * left. eauto.
        * right. eauto 10.
  Qed.

  Lemma logs_taken lg evs es w i : Forall (on lg) evs -> logs m lg evs es -> nth_error w (N.to_nat lg) = Some (mkCell (mkRL i 0) false) ->
    (exists i', lm_calls evs w = (set_nth w (N.to_nat lg) (mkCell (mkRL i' 0) false), Ok tt) /\ taken i' = taken i ++ es) \/
    (exists i' p' es1 e es2, lm_calls evs w = (set_nth w (N.to_nat lg) (mkCell (mkRL i' 0) p'), Panic) /\
       failed f i' p' /\ es = es1 ++ e :: es2 /\ taken i' = taken i ++ es1).
  Proof. intros F L E. exact (calls_taken lg evs F [] 0 es 0 (L []) w i E). Qed.

  (** A poisoned lock stops the first call. *)
  Lemma poisoned_calls lg evs w L : Forall (on lg) evs -> nth_error w (N.to_nat lg) = Some (mkCell L true) ->
    lm_calls evs w = (w, match evs with [] => Ok tt | _ => Panic end).
  Proof.
    intros F E. destruct F as [|ev evs On _]; [reflexivity|]. destruct ev as [l e|l|l]; cbn in On; subst l; cbn [Fail.lm_calls lm_call];
      unfold lbind, lm_log, lm_pause, lm_unpause, with_lock; cbn [rt_log]; rewrite E; reflexivity.
  Qed.
End Taken.

(** ** One entry at most, except for [swap_remove] and switches of variant *)

Section Single.
  Context (m : mode) (lg : N).
  Definition silent {A} (x : M A) : Prop := forall a, snd x = Ok a -> logs m lg (fst x) [].
  Definition one {A} (x : M A) : Prop := forall a, snd x = Ok a -> exists es, (length es <= 1)%nat /\ logs m lg (fst x) es.

  Lemma logs_same evs es es' : logs m lg evs es -> logs m lg evs es' -> es = es'.
  Proof.
    intros A B. specialize (A []). specialize (B []). rewrite A in B. injection B as B. clear A. revert es' B.
    induction es as [|e es IH]; intros [|e' es'] B; try discriminate B; [reflexivity|]. injection B as -> B. f_equal. now apply IH.
  Qed.
  Lemma silent_ret {A} (a : A) : silent (mret a).
  Proof. intros b _. apply logs_nil. Qed.
  Lemma silent_lift {A} (r : res A) : silent (mlift r).
  Proof. intros b _. apply logs_nil. Qed.
  Lemma silent_one {A} (x : M A) : silent x -> one x.
  Proof. intros S a E. exists []. split; [cbn; lia|eauto]. Qed.
  Lemma one_log r e : rt_log r = lg -> one (rt_log_entry r e).
  Proof. intros R a E. destruct e as [e|x| |]; try discriminate E. exists [e]. split; [cbn; lia|]. cbn. rewrite R. apply logs_one. Qed.
  Lemma try_split {A B} v (x : M A) (k : A -> val * M B) b : snd (snd (mtry v x k)) = Ok b ->
    exists a, snd x = Ok a /\ snd (snd (k a)) = Ok b /\ fst (snd (mtry v x k)) = fst x ++ fst (snd (k a)).
  Proof.
    destruct x as [ev [a|e| |]]; cbn [mtry]; intros E; try discriminate E. destruct (k a) as [v' [ev' r]] eqn:K. cbn in *. exists a. rewrite K. auto.
  Qed.
  Lemma try_one1 {A B} v (x : M A) (k : A -> val * M B) : silent x -> (forall a, snd x = Ok a -> one (snd (k a))) -> one (snd (mtry v x k)).
  Proof.
    intros S K b E. destruct (try_split v x k b E) as (a & Ea & Eb & ->). destruct (K a Ea b Eb) as (es & L & Lg). exists es. split; [exact L|].
    change es with ([] ++ es). apply logs_app; eauto.
  Qed.
  Lemma try_one2 {A B} v (x : M A) (k : A -> val * M B) : one x -> (forall a, silent (snd (k a))) -> one (snd (mtry v x k)).
  Proof.
    intros S K b E. destruct (try_split v x k b E) as (a & Ea & Eb & ->). destruct (S a Ea) as (es & L & Lg). exists es. split; [exact L|].
    rewrite <- (app_nil_r es). apply logs_app; [exact Lg|]. eapply K, Eb.
  Qed.
  Lemma set_field_one h r fs rb fn get : rt_log r = lg -> silent get -> one (snd (set_field m h r fs rb fn get)).
  Proof.
    intros R S. unfold set_field. destruct (find_field fn fs) as [[fi x0]|]; [|apply silent_one, silent_lift].
    apply try_one1; [exact S|]. intros x _. destruct (f_state fi); [|apply silent_one, silent_ret].
    apply try_one2; [now apply one_log|]. intros _. apply silent_ret.
  Qed.
  Lemma set_value_silent r fs fn x : silent (set_value r fs fn x).
  Proof. unfold set_value. destruct (find_field fn fs) as [[fi x0]|]; [apply silent_ret|apply silent_lift]. Qed.
  Lemma call_silent r fn cb t : rt_log r = lg -> gives m lg cb (nested r fn) t -> silent (call_paused r fn cb).
  Proof. intros R (evs & x & E & Q & _) a _. rewrite (call_paused_spec r fn cb evs x E). cbn [fst]. rewrite R. now apply logs_paused. Qed.
  Lemma set_value_with_silent r fs fn cb t : rt_log r = lg -> gives m lg cb (nested r fn) t -> silent (set_value_with r fs fn cb).
  Proof.
    intros R G. unfold set_value_with. destruct (find_field fn fs) as [[fi x0]|]; [|apply silent_lift].
    destruct (f_state fi); [now apply (call_silent r fn cb t)|apply silent_lift].
  Qed.
  Lemma parent_log r p : rt_parent r = Ok p -> rt_log p = rt_log r.
  Proof. unfold rt_parent. destruct (node_parent (rt_path r)); cbn; intros E; inversion E. reflexivity. Qed.
  Lemma reset_one h t tag tag0 c r fs : rt_log r = lg -> one (snd (reset_variant m h t tag (VEnum tag0 c (Some r) fs))).
  Proof.
    intros R. unfold reset_variant. destruct t as [| | | | | | | | | | |st vs| |]; try apply silent_one, silent_lift.
    destruct (tag0 =? tag); [apply silent_one, silent_ret|]. destruct (find_variant vs tag) as [va|]; [|apply silent_one, silent_lift].
    apply try_one1; [apply silent_lift|]. intros p Ep. cbn in Ep. apply parent_log in Ep. apply try_one2; [apply one_log; congruence|]. intros _. apply silent_ret.
  Qed.
  Lemma pop_one r l : rt_log r = lg -> one (snd (list_pop r l)).
  Proof. intros R. unfold list_pop. destruct (rev l); [apply silent_one, silent_ret|]. apply try_one2; [now apply one_log|]. intros _. apply silent_ret. Qed.
  Lemma push_one h r l cb : rt_log r = lg -> silent (call_paused r (lenN l) cb) -> one (snd (list_push_with m h r l cb)).
  Proof. intros R S. apply try_one1; [exact S|]. intros x _. apply try_one2; [now apply one_log|]. intros _. apply silent_ret. Qed.
  Lemma insert_one h r es k x : rt_log r = lg -> one (snd (map_insert m h r es k x)).
  Proof. intros R. apply try_one2; [now apply one_log|]. intros _. apply silent_ret. Qed.
End Single.

(** Nodes with a runtime keep it on the logger of the place they sit at. *)
Lemma coh_log r v lg : coh r v -> log_of v = Some lg -> lg = rt_log r.
Proof.
  intros C E. destruct v as [| | | | | | | | | |c [r0|] fs|tag c [r0|] fs|r0 l|r0 es]; try discriminate E; injection E as <-.
  - apply coh_struct in C. now destruct C as [-> _].
  - apply coh_enum in C. now destruct C as [-> _].
  - apply coh_list in C. now destruct C as [-> _].
  - apply coh_map in C. now destruct C as [-> _].
Qed.

Lemma op_one m h t r v o : coh r v -> op_ok m t v o -> swaps o = false -> switches o = false -> one m (rt_log r) (snd (apply_op m h t o v)).
Proof.
  intros C K Sw St. destruct o as [fn x|fn cb|tag fn x|tag fn cb|x|cb| |i|k x|k cb|k]; try discriminate Sw; try discriminate St;
    destruct v as [| | | | | | | | | |c [r0|] fs|tag0 c [r0|] fs|r0 l|r0 es]; cbn [apply_op]; try apply silent_one, silent_lift;
    pose proof (coh_log r _ _ C eq_refl) as R; destruct t as [kk| | | |t|t|n t|ts|kt vt|t|si fts|st vs|t|kk t]; cbn [op_ok] in K; try solve [contradiction K].
  - apply set_field_one; [exact R|apply set_value_silent].
  - destruct K as (fi & t' & F & Fs & G). rewrite R in G. apply set_field_one; [exact R|]. now apply (set_value_with_silent m _ r0 fs fn cb t').
  - apply push_one; [exact R|]. intros a _. rewrite (call_paused_spec r0 _ _ [] (set_rt (nested r0 (lenN l)) x)) by reflexivity. cbn [fst]. rewrite R. apply logs_paused. reflexivity.
  - rewrite R in K. apply push_one; [exact R|]. now apply (call_silent m _ r0 _ cb t).
  - now apply pop_one.
  - now apply insert_one.
  - destruct K as [_ K]. rewrite R in K. apply try_one1; [now apply (call_silent m _ r0 _ cb t)|]. intros x _. now apply insert_one.
  - apply try_one2; [now apply one_log|]. intros _. apply silent_ret.
Qed.

(** ** Calls stay on the logger of the tree *)

Definition mon {A} (lg : N) (x : M A) : Prop := Forall (on lg) (fst x).

Section On.
  Context (m : mode) (lg : N).
  Lemma mon_nil {A} (r : res A) : mon lg (mlift r). Proof. constructor. Qed.
  Lemma mon_bind {A B} (x : M A) (k : A -> M B) : mon lg x -> (forall a, mon lg (k a)) -> mon lg (mbind x k).
  Proof.
    intros X K. destruct x as [ev [a|e| |]]; cbn [mbind]; try exact X. specialize (K a). unfold mon in *. destruct (k a) as [ev' r]. cbn in *. now apply Forall_app.
  Qed.
  Lemma mon_try {A B} v (x : M A) (k : A -> val * M B) : mon lg x -> (forall a, snd x = Ok a -> mon lg (snd (k a))) -> mon lg (snd (mtry v x k)).
  Proof.
    intros X K. destruct x as [ev [a|e| |]]; cbn [mtry]; try exact X. specialize (K a eq_refl). unfold mon in *. destruct (k a) as [v' [ev' r]]. cbn in *. now apply Forall_app.
  Qed.
  Lemma mon_log r e : rt_log r = lg -> mon lg (rt_log_entry r e).
  Proof. intros R. apply mon_bind; [apply mon_nil|]. intros a. constructor; [exact R|constructor]. Qed.
  Lemma mon_call r fn cb : rt_log r = lg -> cb_on lg cb -> mon lg (call_paused r fn cb).
  Proof.
    intros R C. apply mon_bind; [constructor; [exact R|constructor]|]. intros _. apply mon_bind; [apply C|]. intros x.
    apply mon_bind; [constructor; [exact R|constructor]|]. intros _. apply mon_nil.
  Qed.
  Lemma mon_set_field h r fs rb fn get : rt_log r = lg -> mon lg get -> mon lg (snd (set_field m h r fs rb fn get)).
  Proof.
    intros R G. unfold set_field. destruct (find_field fn fs) as [[fi x0]|]; [|apply mon_nil]. apply mon_try; [exact G|]. intros x _.
    destruct (f_state fi); [|apply mon_nil]. apply mon_try; [now apply mon_log|]. intros _ _. apply mon_nil.
  Qed.
  Lemma mon_set_value r fs fn x : mon lg (set_value r fs fn x).
  Proof. unfold set_value. destruct (find_field fn fs) as [[fi x0]|]; apply mon_nil. Qed.
  Lemma mon_set_value_with r fs fn cb : rt_log r = lg -> cb_on lg cb -> mon lg (set_value_with r fs fn cb).
  Proof.
    intros R C. unfold set_value_with. destruct (find_field fn fs) as [[fi x0]|]; [|apply mon_nil]. destruct (f_state fi); [now apply mon_call|apply mon_nil].
  Qed.
  Lemma mon_reset h t tag tag0 c r fs : rt_log r = lg -> mon lg (snd (reset_variant m h t tag (VEnum tag0 c (Some r) fs))).
  Proof.
    intros R. unfold reset_variant. destruct t as [| | | | | | | | | | |st vs| |]; try apply mon_nil.
    destruct (tag0 =? tag); [apply mon_nil|]. destruct (find_variant vs tag) as [va|]; [|apply mon_nil].
    apply mon_try; [apply mon_nil|]. intros p Ep. apply parent_log in Ep. apply mon_try; [apply mon_log; congruence|]. intros _ _. apply mon_nil.
  Qed.
  Lemma reset_log h t tag tag0 c r fs : rt_log r = lg -> match log_of (fst (reset_variant m h t tag (VEnum tag0 c (Some r) fs))) with Some l => l = lg | None => True end.
  Proof.
    intros R. unfold reset_variant. destruct t as [| | | | | | | | | | |st vs| |]; try exact R.
    destruct (tag0 =? tag); [exact R|]. destruct (find_variant vs tag) as [[[tg cc] ts]|]; [|exact R].
    destruct (rt_parent r) as [p|e| |] eqn:Ep; cbn [mlift mtry]; try exact R. apply parent_log in Ep. cbn [variant_ctor].
    unfold rt_log_entry. destruct (entry_update m p _ h) as [e|e| |]; cbn [mlift mbind mtry fst log_of]; try exact R.
    destruct st; cbn [mret fst log_of nested rt_log]; [congruence|exact Logic.I].
  Qed.
  Lemma mon_pop r l : rt_log r = lg -> mon lg (snd (list_pop r l)).
  Proof. intros R. unfold list_pop. destruct (rev l); [apply mon_nil|]. apply mon_try; [now apply mon_log|]. intros _ _. apply mon_nil. Qed.
  Lemma mon_push h r l cb : rt_log r = lg -> cb_on lg cb -> mon lg (snd (list_push_with m h r l cb)).
  Proof. intros R C. apply mon_try; [now apply mon_call|]. intros x _. apply mon_try; [now apply mon_log|]. intros _ _. apply mon_nil. Qed.
  Lemma mon_insert h r es k x : rt_log r = lg -> mon lg (snd (map_insert m h r es k x)).
  Proof. intros R. apply mon_try; [now apply mon_log|]. intros _ _. apply mon_nil. Qed.
  Lemma mon_then {B} (x : val * M unit) (k : val -> val * M B) : mon lg (snd x) -> mon lg (snd (k (fst x))) -> mon lg (snd (mthen x k)).
  Proof. intros X K. unfold mthen. destruct x as [v o]. apply mon_try; [exact X|]. intros _ _. exact K. Qed.

  Lemma op_mon h t o v : log_of v = Some lg -> op_on lg o -> mon lg (snd (apply_op m h t o v)).
  Proof.
    intros L On. destruct o as [fn x|fn cb|tag fn x|tag fn cb|x|cb| |i|k x|k cb|k];
      destruct v as [| | | | | | | | | |c [r|] fs|tag0 c [r|] fs|r l|r es]; cbn [apply_op]; try apply mon_nil; injection L as R; cbn [op_on] in On.
    - apply mon_set_field; [exact R|apply mon_set_value].
    - apply mon_set_field; [exact R|now apply mon_set_value_with].
    - apply mon_then; [now apply mon_reset|]. pose proof (reset_log h t tag tag0 c r fs R) as X.
      destruct (fst (reset_variant m h t tag (VEnum tag0 c (Some r) fs))) as [| | | | | | | | | | |tag1 c1 [r1|] fs1| |]; try apply mon_nil. cbn [log_of] in X.
      apply mon_set_field; [exact X|apply mon_set_value].
    - apply mon_then; [now apply mon_reset|]. pose proof (reset_log h t tag tag0 c r fs R) as X.
      destruct (fst (reset_variant m h t tag (VEnum tag0 c (Some r) fs))) as [| | | | | | | | | | |tag1 c1 [r1|] fs1| |]; try apply mon_nil. cbn [log_of] in X.
      apply mon_set_field; [exact X|now apply mon_set_value_with].
    - apply mon_push; [exact R|]. intros r'. constructor.
    - now apply mon_push.
    - now apply mon_pop.
    - unfold list_swap_remove. destruct (lenN l <=? i); [apply mon_nil|]. destruct (i =? lenN l - 1); [now apply mon_pop|].
      destruct (nth_error l (N.to_nat i)) as [x|]; [|apply mon_nil]. destruct (rev l) as [|z l0]; [apply mon_nil|]. apply mon_try.
      + apply mon_bind; [apply mon_nil|]. intros e2. constructor; [exact R|constructor; [exact R|constructor]].
      + intros _ _. destruct (vwty z); [apply mon_nil|]. apply mon_try; [apply mon_nil|]. intros rt' _. apply mon_nil.
    - now apply mon_insert.
    - apply mon_try; [now apply mon_call|]. intros x _. now apply mon_insert.
    - apply mon_try; [now apply mon_log|]. intros _ _. apply mon_nil.
  Qed.
End On.

(** ** What an attempted operation does to tree and log *)

Lemma op_log m t r v o : state_ty t = true -> wt t v = true -> coh r v -> op_ok m t v o -> log_of v = Some (rt_log r).
Proof.
  intros S W C K. assert (N : log_of v <> None).
  { destruct o as [fn x|fn cb|tag fn x|tag fn cb|x|cb| |i|k x|k cb|k]; destruct t as [kk| | | |t|t|n t|ts|kt vt|t|si fts|st vs|t|kk t]; try solve [contradiction K];
      destruct v as [| | | | | | | | | |c r0 fs|tag0 c r0 fs|r0 l|r0 es]; try discriminate W; try (cbn; discriminate).
    - rewrite wt_struct_eq in W. bprop. cbn [state_ty] in S. rewrite S in *. destruct r0; [discriminate|]. discriminate.
    - rewrite wt_struct_eq in W. bprop. cbn [state_ty] in S. rewrite S in *. destruct r0; [discriminate|]. discriminate.
    - destruct (wt_enum_inv _ _ _ _ _ _ W) as (_ & _ & _ & _ & _ & Hst & Hb). cbn [state_ty] in S. subst st. destruct r0; discriminate.
    - destruct (wt_enum_inv _ _ _ _ _ _ W) as (_ & _ & _ & _ & _ & Hst & Hb). cbn [state_ty] in S. subst st. destruct r0; discriminate. }
  destruct (log_of v) as [lg|] eqn:E; [|congruence]. f_equal. exact (coh_log r v lg C E).
Qed.

Lemma reset_nil m h t tag v : fst (snd (reset_variant m h t tag v)) = [] -> fst (reset_variant m h t tag v) = v.
Proof.
  unfold reset_variant. destruct t as [| | | | | | | | | | |st vs| |]; try reflexivity. destruct v as [| | | | | | | | | | |tag0 c [r|] fs| |]; try reflexivity.
  destruct (tag0 =? tag); [reflexivity|]. destruct (find_variant vs tag) as [va|]; [|reflexivity]. destruct (rt_parent r) as [p|e| |]; try reflexivity.
  cbn [mlift mtry]. unfold rt_log_entry. destruct (entry_update m p _ h) as [e|e| |]; cbn; try reflexivity. discriminate.
Qed.

Section Effect.
  Context {I : Type} (f : logfn I) (m : mode) (taken : I -> list entry) (H : keeps_count f taken).

  Definition effectF (h : store) (t : ty) (r : rt) (v : val) (o : op) : Prop :=
    forall w i p, logger_at (rt_log r) w i p ->
    exists v' i' p' out es, apply_opF f m h t o v w = (v', (set_nth w (N.to_nat (rt_log r)) (mkCell (mkRL i' 0) p'), out)) /\
      wt t v' = true /\ coh r v' /\ taken i' = taken i ++ map (rel (collect_values (rt_path r))) es /\
      ((exists ret, out = Ok ret /\ p' = p) \/ out = Panic /\ (p = true /\ p' = true /\ i' = i \/ p = false /\ failed f i' p')) /\
      (swaps o = true -> out = Panic -> v' = v) /\
      (swaps o && is_panic out = false ->
       forall m' w0, Forall entry_ok es -> wt t w0 = true -> same v w0 -> exists w1, handle_all m' t es w0 = (w1, Ok tt) /\ same v' w1).

  Lemma few_none {A} (es es1 es2 : list A) e : (length es <= 1)%nat -> es = es1 ++ e :: es2 -> es1 = [].
  Proof. intros L ->. rewrite app_length in L. cbn in L. destruct es1; [reflexivity|cbn in L; lia]. Qed.

  Lemma nothing t v m' w0 : Forall entry_ok [] -> wt t w0 = true -> same v w0 -> exists w1, handle_all m' t [] w0 = (w1, Ok tt) /\ same v w1.
  Proof. intros _ _ S. exists w0. auto. Qed.

  Lemma op_effectF h t r v o : ty_ok t = true -> state_ty t = true -> wt t v = true -> coh r v -> op_ok m t v o -> op_on (rt_log r) o -> effectF h t r v o.
  Proof.
    intros O S W C K On w i p Lw. set (lg := rt_log r) in *. set (b := collect_values (rt_path r)).
    pose proof (op_log m t r v o S W C K) as Lv. pose proof (op_mon m lg h t o v Lv On) as Mo.
    destruct (op_effect m h t r v o O S W C K) as (v1 & evs & ret & es & E & W1 & C1 & L & T & R). fold lg b in L.
    rewrite op_plays. unfold ends. rewrite E. cbn [fst snd]. unfold mon in Mo. rewrite E in Mo. cbn [fst snd] in Mo.
    assert (Fr : forall q, mkCell (mkRL i 0) q = mkCell (mkRL i 0) p -> set_nth w (N.to_nat lg) (mkCell (mkRL i 0) q) = w) by (intros q ->; now apply set_nth_same).
    destruct p.
    { (* poisoned *) rewrite (poisoned_calls f m lg evs w _ Mo Lw). destruct evs as [|ev evs].
      - assert (Ee : es = []). { pose proof (logs_same m lg _ _ _ L (logs_nil m lg)) as X. destruct es; [reflexivity|discriminate X]. } subst es.
        exists v1, i, true, (Ok ret), []. rewrite Fr by reflexivity. split; [reflexivity|]. split; [exact W1|]. split; [exact C1|]. split; [now rewrite app_nil_r|].
        split; [left; eauto|]. split; [discriminate|]. intros _. exact (fun m' w0 => R m' w0).
      - assert (Lb : left_by f m h t o v w = v).
        { unfold left_by. assert (Ms : mon lg (snd (switch m h t o v))).
          { destruct o; cbn [switch]; try apply mon_nil; destruct v as [| | | | | | | | | | |tag0 c [r0|] fs| |]; try apply mon_nil; apply mon_reset; injection Lv as Lv; exact Lv. }
          rewrite (poisoned_calls f m lg _ w _ Ms Lw). destruct (fst (snd (switch m h t o v))) eqn:Es; [|reflexivity].
          destruct o; try reflexivity; destruct v as [| | | | | | | | | | |tag0 c [r0|] fs| |]; try reflexivity; now apply reset_nil. }
        rewrite Lb. exists v, i, true, Panic, []. rewrite Fr by reflexivity. split; [reflexivity|]. split; [exact W|]. split; [exact C|]. split; [now rewrite app_nil_r|].
        split; [right; auto|]. split; [auto|]. intros _. apply nothing. }
    destruct (logs_taken f m taken H lg evs _ w i Mo L Lw) as [(i' & -> & Ti)|(i' & p' & es1 & e & es2 & Ec & Fl & Es & Ti)].
    { (* all taken *) exists v1, i', false, (Ok ret), es. split; [reflexivity|]. split; [exact W1|]. split; [exact C1|]. split; [exact Ti|].
      split; [left; eauto|]. split; [discriminate|]. intros _. exact (fun m' w0 => R m' w0). }
    destruct (switches o) eqn:Sw.
    2: { (* refused, no switch *)
      assert (Lb : left_by f m h t o v w = v) by (destruct o; try discriminate Sw; reflexivity). rewrite Ec, Lb.
      destruct (map_eq_app _ _ _ _ Es) as (a & a' & -> & Ea & _).
      exists v, i', p', Panic, a. split; [reflexivity|]. split; [exact W|]. split; [exact C|]. split; [now rewrite Ea|]. split; [right; split; [reflexivity|right; auto]|].
      split; [auto|]. destruct (swaps o) eqn:Sp; [discriminate|]. intros _.
      pose proof (op_one m h t r v o C K Sp Sw) as X. rewrite E in X. destruct (X ret eq_refl) as (es' & Len & L'). cbn [fst snd] in L'.
      pose proof (logs_same m lg _ _ _ L L') as <-. pose proof (few_none _ _ _ _ Len Es) as ->. destruct a; [|discriminate Ea]. apply nothing. }
    (* refused, in an operation that may switch first *)
    assert (Sx : exists tag0 c r0 fs, v = VEnum tag0 c (Some r0) fs).
    { destruct o; try discriminate Sw; destruct t; try contradiction K; destruct v as [| | | | | | | | | | |tag0 c [r0|] fs| |]; try discriminate Lv; try contradiction K; eauto. }
    destruct Sx as (tag0 & c & r0 & fs & ->). pose proof C as C0. apply coh_enum in C0. destruct C0 as [-> _].
    assert (Tx : exists vs, t = TEnum true vs).
    { destruct o; try discriminate Sw; destruct t; try contradiction K; cbn [state_ty] in S; subst; eauto. }
    destruct Tx as [vs ->].
    assert (G : exists tag va k, find_variant vs tag = Some va /\ (tag0 <> tag -> lenN (enc (variant_ctor true va rt_default)) < 2 ^ 32) /\
      switch m h (TEnum true vs) o (VEnum tag0 c (Some (nested r tag0)) fs) = reset_variant m h (TEnum true vs) tag (VEnum tag0 c (Some (nested r tag0)) fs) /\
      apply_op m h (TEnum true vs) o (VEnum tag0 c (Some (nested r tag0)) fs) = mthen (reset_variant m h (TEnum true vs) tag (VEnum tag0 c (Some (nested r tag0)) fs)) k /\
      (forall c' fs', one m lg (snd (k (VEnum tag c' (Some (nested r tag)) fs'))) /\ mon lg (snd (k (VEnum tag c' (Some (nested r tag)) fs'))))).
    { destruct o as [| |tag fn x|tag fn cb| | | | | | |]; try discriminate Sw; cbn [op_ok] in K.
      - destruct K as (va & fi & t' & V & F & Fs & A & Hl). exists tag, va. eexists. split; [exact V|]. split; [exact Hl|]. split; [reflexivity|]. split; [reflexivity|].
        intros c' fs'. split; [apply set_field_one; [reflexivity|apply set_value_silent]|apply mon_set_field; [reflexivity|apply mon_set_value]].
      - destruct K as (va & fi & t' & q & V & F & Fs & Ep & Gv & Hl). assert (q = r) by (destruct r; cbn in Ep; congruence). subst q.
        exists tag, va. eexists. split; [exact V|]. split; [exact Hl|]. split; [reflexivity|]. split; [reflexivity|].
        intros c' fs'. split; [apply set_field_one; [reflexivity|]; now apply (set_value_with_silent m lg (nested r tag) fs' fn cb t')|apply mon_set_field; [reflexivity|]; now apply mon_set_value_with]. }
    destruct G as (tag & va & k & V & Hl & Esw & Eop & G).
    destruct (reset_effect m h vs r tag0 c fs tag va O W C V Hl) as (c' & fs' & evr & esr & Er & Wr & Cr & Lr & Tr & Rr). cbn zeta in *. fold lg b in Lr.
    destruct (G c' fs') as [G1 G2]. rewrite Eop, Er in E. unfold mthen in E. cbn [mtry] in E.
    destruct (k (VEnum tag c' (Some (nested r tag)) fs')) as [v2 [evs2 out2]] eqn:Ek. cbn [fst snd] in *. injection E as -> <- ->.
    unfold left_by. rewrite Esw, Er. cbn [fst snd]. rewrite lm_calls_app. unfold lbind.
    assert (Mr : Forall (on lg) evr).
    { pose proof (mon_reset m lg h (TEnum true vs) tag tag0 c (nested r tag0) fs eq_refl) as X. rewrite Er in X. exact X. }
    destruct (logs_taken f m taken H lg evr _ w i Mr Lr Lw) as [(i1 & Ec1 & T1)|(i1 & p1 & ea & e1 & eb & Ec1 & Fl1 & Es1 & T1)]; rewrite Ec1.
    - rewrite lm_calls_app in Ec. unfold lbind in Ec. rewrite Ec1 in Ec. rewrite Ec.
      exists (VEnum tag c' (Some (nested r tag)) fs'), i', p', Panic, esr. split; [reflexivity|]. split; [exact Wr|]. split; [exact Cr|].
      destruct (G1 ret eq_refl) as (es' & Len & L2). cbn [fst snd] in L2.
      pose proof (nth_set_same w _ (mkCell (mkRL i1 0) false) _ Lw) as Lw1.
      destruct (logs_taken f m taken H lg evs2 es' _ i1 G2 L2 Lw1) as [(i2 & Ec2 & _)|(i2 & p2 & ea & e2 & eb & Ec2 & _ & Es2 & T2)]; [rewrite Ec2 in Ec; discriminate Ec|].
      pose proof (few_none _ _ _ _ Len Es2) as ->. rewrite Ec2, TreeProofs.set_set in Ec. injection Ec as Ec.
      assert (mkCell (mkRL i2 0) p2 = mkCell (mkRL i' 0) p').
      { pose proof (nth_set_same w _ (mkCell (mkRL i2 0) p2) _ Lw) as X. rewrite Ec, (nth_set_same w _ _ _ Lw) in X. congruence. }
      injection H0 as -> ->. split; [now rewrite T2, app_nil_r, T1|]. split; [right; split; [reflexivity|right; auto]|].
      split; [intros Sp; destruct o; discriminate|]. intros _ m' w0 _ Ww Sm. destruct (Rr m' w0 Ww Sm) as (w1 & Hw & S1 & _). eauto.
    - pose proof (reset_one m lg h (TEnum true vs) tag tag0 c (nested r tag0) fs eq_refl) as X. rewrite Er in X. destruct (X tt eq_refl) as (es' & Len & L').
      cbn [fst snd] in L'. pose proof (logs_same m lg _ _ _ Lr L') as Eq. rewrite <- Eq in Len. pose proof (few_none _ _ _ _ Len Es1) as ->.
      eexists _, i1, p1, Panic, []. split; [reflexivity|]. split; [exact W|]. split; [exact C|]. split; [exact T1|]. split; [right; split; [reflexivity|right; auto]|].
      split; [auto|]. intros _. apply nothing.
  Qed.

  Lemma at_effectF h o w i p : forall steps t r v t' x q, ty_ok t = true -> state_ty t = true -> wt t v = true -> coh r v ->
    walk t v steps = Some (t', x, q) -> op_ok m t' x o -> op_on (rt_log r) o -> logger_at (rt_log r) w i p ->
    exists v' i' p' out es, at_node steps (fun t x => apply_opF f m h t o x w) t v = Some (v', (set_nth w (N.to_nat (rt_log r)) (mkCell (mkRL i' 0) p'), out)) /\
      wt t v' = true /\ coh r v' /\ taken i' = taken i ++ map (rel (collect_values (rt_path r))) es /\
      ((exists ret, out = Ok ret /\ p' = p) \/ out = Panic /\ (p = true /\ p' = true /\ i' = i \/ p = false /\ failed f i' p')) /\
      (swaps o && is_panic out = false ->
       forall m' w0, Forall entry_ok es -> wt t w0 = true -> same v w0 -> exists w1, handle_all m' t es w0 = (w1, Ok tt) /\ same v' w1).
  Proof.
    induction steps as [|s steps IH]; intros t r v t' x q O S W C E K On Lw; cbn [walk] in E.
    - inversion E; subst. destruct (op_effectF h t' r x o O S W C K On w i p Lw) as (v' & i' & p' & out & es & A & W' & C' & Tk & Ou & _ & R).
      exists v', i', p', out, es. cbn [at_node]. rewrite A. auto 9.
    - destruct (child t v s) as [[t1 y]|] eqn:Ch; [|discriminate E]. destruct (state_step v s) eqn:Ss; [|discriminate E].
      destruct (walk t1 y steps) as [[[t2 z] q2]|] eqn:Wk; [|discriminate E]. inversion E; subst.
      destruct (child_wt t v s t1 y O W Ch) as (O1 & W1 & S1). specialize (S1 S Ss).
      pose proof (coh_child t v s t1 y r O W Ch Ss C) as C1.
      destruct (IH t1 (rt_at r (seg v s)) y t' x q2 O1 S1 W1 C1 Wk K) as (y' & i' & p' & out & es & A & W' & C' & Tk & Ou & R); rewrite ?rt_at_log in *; try assumption.
      exists (put_child v s y'), i', p', out, (map (rel (seg v s)) es). cbn [at_node]. rewrite Ch, A. split; [reflexivity|]. split; [|split; [|split; [|split; [exact Ou|]]]].
      + now apply (put_child_wt t v s t1 y).
      + apply (coh_put t v s t1 y); auto.
      + rewrite map_map. rewrite collect_at in Tk. erewrite map_ext; [exact Tk|]. intros e. cbn. now rewrite rel_app.
      + intros Sp m' w0 Fo Ww Sm. assert (Fe : Forall entry_ok es).
        { apply Forall_forall. intros e In0. rewrite Forall_forall in Fo. apply (rel_ok (seg v s)). apply Fo. now apply in_map. }
        destruct (same_child _ _ _ _ _ _ Sm Ch) as (u & Cw & Su). rewrite (same_seg _ _ _ Sm). rewrite (same_state_step _ _ _ Sm) in Ss.
        destruct (child_wt t w0 s t1 u O Ww Cw) as (_ & Wu & _). destruct (R Sp m' u Fe Wu Su) as (u' & Hu & Su').
        rewrite (handle_all_child m' t s t1 es O S Fe w0 u Ww Cw Ss), Hu. eexists. split; [reflexivity|]. now apply (same_put t v w0 s t1 y).
  Qed.

  Lemma attempt_effect t r : ty_ok t = true -> state_ty t = true -> forall cs v w i p, wt t v = true -> coh r v ->
    logger_at (rt_log r) w i p -> legalF f m (rt_log r) t v cs w ->
    exists v' w' i' p' outs es, attempt f m t v cs w = (v', (w', outs)) /\ length outs = length cs /\ wt t v' = true /\ coh r v' /\
      logger_at (rt_log r) w' i' p' /\ (forall l, l <> rt_log r -> nth_error w' (N.to_nat l) = nth_error w (N.to_nat l)) /\
      taken i' = taken i ++ map (rel (collect_values (rt_path r))) es /\
      Forall (fun out => out = Panic \/ exists ret, out = Ok ret) outs /\
      (Forall2 (fun c out => swaps (c_op c) = true -> out <> Panic) cs outs ->
       forall m' w0, Forall entry_ok es -> wt t w0 = true -> same v w0 ->
         exists w1, handle_all m' t es w0 = (w1, Ok tt) /\ wt t w1 = true /\ same v' w1).
  Proof.
    intros O S. induction cs as [|c cs IH]; intros v w i p W C Lw Lg; cbn [legalF attempt] in *.
    - exists v, w, i, p, [], []. split; [reflexivity|]. split; [reflexivity|]. split; [exact W|]. split; [exact C|]. split; [exact Lw|]. split; [auto|].
      split; [now rewrite app_nil_r|]. split; [constructor|]. intros _ m' w0 _ Ww Sm. exists w0. auto.
    - destruct Lg as [(t' & x & q & Wk & K & On) Lg].
      destruct (at_effectF (c_caches c) (c_op c) w i p (c_at c) t r v t' x q O S W C Wk K On Lw) as (v1 & i1 & p1 & out & es & A & W1 & C1 & T1 & Ou & R).
      pose proof (nth_set_same w _ (mkCell (mkRL i1 0) p1) _ Lw) as Lw1.
      destruct (IH v1 _ i1 p1 W1 C1 Lw1 (Lg _ _ _ A)) as (v2 & w2 & i2 & p2 & outs & es2 & E2 & Len & W2 & C2 & L2 & Ot & T2 & Ous & R2).
      exists v2, w2, i2, p2, (out :: outs), (es ++ es2). rewrite A, E2. split; [reflexivity|]. split; [cbn; now f_equal|]. split; [exact W2|]. split; [exact C2|].
      split; [exact L2|]. split; [|split; [|split]].
      + intros l Hl. rewrite (Ot l Hl). apply nth_set_other. intros E. apply Hl. now apply N2Nat.inj.
      + now rewrite T2, T1, map_app, app_assoc.
      + constructor; [|exact Ous]. destruct Ou as [(ret & -> & _)|[-> _]]; eauto.
      + intros F m' w0 Fo Ww Sm. inversion F as [|? ? ? ? F1 F2]; subst. apply Forall_app in Fo. destruct Fo as [Fo1 Fo2].
        assert (Sp : swaps (c_op c) && is_panic out = false).
        { destruct (swaps (c_op c)); [|reflexivity]. destruct out; try reflexivity. now elim (F1 eq_refl). }
        destruct (R Sp m' w0 Fo1 Ww Sm) as (w1 & H1 & S1).
        assert (Ww1 : wt t w1 = true). { pose proof (handle_all_wt m' t es O S Fo1 w0 Ww) as X. now rewrite H1 in X. }
        destruct (R2 F2 m' w1 Fo2 Ww1 S1) as (w3 & H2 & Ww3 & S3). exists w3. rewrite handle_all_app, H1. auto.
  Qed.
End Effect.
