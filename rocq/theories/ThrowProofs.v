(** Lemmas about CsThrow.v. *)
From Verif Require Import Base Varint WireFmt Utf8 Types Ser Spec De Log State StateSpec Coll ValInd SerProofs TypeProofs DeProofs CSharp CSharpProofs CSharpSim CSharpSafe CsObj ObjSpec ObjProofs CsThrow.

Section Proofs.
  Context {H : Type} (subs : list (handler H)).

  Fixpoint raises (s : H) (evs : list event) : H * bool :=
    match evs with
    | [] => (s, false)
    | ev :: evs => let '(s, threw) := raise subs s ev in if threw then (s, true) else raises s evs
    end.
  Definition conv (r : res changed) (v : cobj) (n : N) (s : H) : left_by :=
    match r with
    | Ok (v', n', evs) => let '(s', threw) := raises s evs in if threw then ((v, n', s'), Panic) else ((v', n', s'), Ok tt)
    | Err e => ((v, n, s), Err e)
    | Panic => ((v, n, s), Panic)
    | NoFuel => ((v, n, s), NoFuel)
    end.
  Lemma raises_one s ev : raises s [ev] = raise subs s ev.
  Proof. cbn. destruct (raise subs s ev) as [s' []]; reflexivity. Qed.
  Lemma conv_one v n s ev v' n' : conv (Ok (v', n', [ev])) v n s = tell subs v n' s ev v'.
  Proof. unfold conv. rewrite raises_one. reflexivity. Qed.

  Lemma replace_conv tag bs t v n s : t_replace_at subs tag bs t v n s = conv (o_replace_at tag bs t v n) v n s.
  Proof.
    destruct t, v; try reflexivity; cbn [t_replace_at o_replace_at].
    - destruct (nth_error _ _); [|reflexivity]. destruct (o_deser _ _ _ _) as [[[x r] m]| | |]; cbn [bind making]; [|reflexivity..]. now rewrite conv_one.
    - destruct (o_deser _ _ _ _) as [[[x r] m]| | |]; cbn [bind making]; [|reflexivity..]. now rewrite conv_one.
    - destruct (assoc tag fs) as [[g c]|]; [|reflexivity]. destruct (o_deser _ _ _ _) as [[[x r] m]| | |]; cbn [bind making]; [|reflexivity..].
      destruct (assoc tag fs0); [|reflexivity]. now rewrite conv_one.
    - destruct (assoc tag vs); [|reflexivity]. destruct (o_deser _ _ _ _) as [[[x r] m]| | |]; cbn [bind making]; [|reflexivity..].
      destruct x; try reflexivity. now rewrite conv_one.
  Qed.
  Lemma push_conv bs t v n s : t_push subs bs t v n s = conv (o_push bs t v n) v n s.
  Proof. destruct t, v; try reflexivity; cbn [t_push o_push]. destruct (o_deser _ _ _ _) as [[[x r] m]| | |]; cbn [bind making]; [|reflexivity..]. now rewrite conv_one. Qed.
  Lemma pop_conv t v n s : t_pop subs t v n s = conv (o_pop t v n) v n s.
  Proof. destruct t, v; try reflexivity; cbn [t_pop o_pop]. destruct l; [reflexivity|]. now rewrite conv_one. Qed.
  Lemma remove_conv k t v n s : t_remove subs k t v n s = conv (o_remove k t v n) v n s.
  Proof. destruct t, v; try reflexivity; cbn [t_remove o_remove]. destruct (assoc k es); [|reflexivity]. now rewrite conv_one. Qed.

  Lemma modify_conv op op' : (forall t v n s, op t v n s = conv (op' t v n) v n s) ->
    forall path t v n s, t_modify t v n s path op = conv (o_modify t v n path op') v n s.
  Proof.
    intros Op. induction path as [|a path IH]; intros t v n s; [apply Op|]. cbn [t_modify o_modify].
    destruct (o_child t v a) as [[[t' x]|]| | |] eqn:E; cbn [bind making]; try reflexivity. rewrite IH.
    pose proof (put_same t v a t' x E) as P. destruct (o_modify t' x n path op') as [[[x' n'] evs]| | |]; cbn [bind conv]; try now rewrite P.
    destruct (raises s evs) as [s' []]; now rewrite ?P.
  Qed.
  Lemma handle_conv t e v n s : t_handle subs t e v n s = conv (o_handle t e v n) v n s.
  Proof.
    destruct e as [p bs|p bs|p|p k]; cbn [t_handle o_handle].
    - destruct p as [|a p]; [destruct (o_deser _ _ _ _) as [[[x r] m]| | |]; reflexivity|]. apply modify_conv, replace_conv.
    - apply modify_conv, push_conv.
    - apply modify_conv, pop_conv.
    - apply modify_conv, remove_conv.
  Qed.

  (** The loop, by entries. *)
  Lemma t_loop_next fuel t v n s b bs' : let bs := b :: bs' in
    t_loop subs (S fuel) t v n s bs =
    match c_next bs with
    | Ok (e, rest) => match conv (o_handle t e v n) v n s with
                      | ((v, n, s), Ok _) => t_loop subs fuel t v n s rest
                      | (w, o) => (w, rest, o)
                      end
    | r => ((v, n, s), match c_nested bs with Ok (_, rest) => rest | _ => c_unread bs end, match r with Err e => Err e | NoFuel => NoFuel | _ => Panic end)
    end.
  Proof.
    intros bs. change (t_loop subs (S fuel) t v n s bs) with
      (match c_nested bs with
       | Ok (sub, rest) => match (do (x, _) <- c_deser cEntry sub; c_entry x) with
          | Ok e => match t_handle subs t e v n s with ((v, n, s), Ok _) => t_loop subs fuel t v n s rest | (w, o) => (w, rest, o) end
          | Panic => ((v, n, s), rest, Panic) | Err e => ((v, n, s), rest, Err e) | NoFuel => ((v, n, s), rest, NoFuel) end
       | Panic => ((v, n, s), c_unread bs, Panic) | Err e => ((v, n, s), c_unread bs, Err e) | NoFuel => ((v, n, s), c_unread bs, NoFuel) end).
    unfold c_next. destruct (c_nested bs) as [[sub rest]| | |]; cbn [bind]; try reflexivity.
    destruct (c_deser cEntry sub) as [[x r]| | |]; cbn [bind]; try reflexivity. destruct (c_entry x) as [e| | |]; cbn [bind]; try reflexivity. now rewrite handle_conv.
  Qed.

  Lemma raises_app s evs evs' s1 : raises s evs = (s1, false) -> raises s (evs ++ evs') = raises s1 evs'.
  Proof.
    revert s. induction evs as [|ev evs IH]; intros s E; cbn in *; [now injection E as ->|]. destruct (raise subs s ev) as [s2 []]; [discriminate|]. now apply IH.
  Qed.
  Lemma handle_events t e v n v' n' evs : o_handle t e v n = Ok (v', n', evs) -> evs = [] \/ exists ev, evs = [ev].
  Proof.
    intros E. destruct (root_dec e) as [[b ->]|D].
    - cbn in E. destruct (o_deser _ _ _ _) as [[[x r] m]| | |]; try discriminate E. injection E as _ _ <-. now left.
    - destruct (handle_tells _ _ _ _ _ _ _ D E) as [(-> & _)|(ev & -> & _)]; [now left|right; now exists ev].
  Qed.

  (** Where and how a replay ends, the handlers being in [s1] after the entries applied. *)
  Definition stops (t : cty) (v : cobj) (n1 n' : N) (s1 s' : H) (rest left : bytes) (o : res unit) : Prop :=
    (o = Ok tt /\ rest = [] /\ left = [] /\ s' = s1 /\ n' = n1) \/
    (o = Panic /\ exists e w ev, c_next rest = Ok (e, left) /\ o_handle t e v n1 = Ok (w, n', [ev]) /\ raise subs s1 ev = (s', true)) \/
    (o = Panic /\ rest <> [] /\ s' = s1 /\ n' = n1 /\ (forall e rest', c_next rest = Ok (e, rest') -> c_handle t e (erase v) = Panic) /\
     left = match c_nested rest with Ok (_, rest') => rest' | _ => c_unread rest end).
  Lemma t_loop_inv (P : rule) t : cgen t = true -> c_state t = true -> (forall v n, P [] v n [] v n) -> step_rule t P ->
    forall fuel v n s bs v' n' s' left o, cwt t (erase v) = true -> (length bs <= fuel)%nat -> t_loop subs fuel t v n s bs = ((v', n', s'), left, o) ->
    exists es rest evs s1 n1, c_decodes bs es rest /\ P es v n evs v' n1 /\ cwt t (erase v') = true /\ c_handle_all t es (erase v) = Ok (erase v') /\
      raises s evs = (s1, false) /\ stops t v' n1 n' s1 s' rest left o.
  Proof.
    intros G St P0 P1. induction fuel as [|fuel IH]; intros v n s bs v' n' s' left o W L E.
    - destruct bs; [|cbn in L; lia]. injection E as <- <- <- <- <-. exists [], [], [], s, n. split; [constructor|]. split; [apply P0|]. repeat (split; [assumption || reflexivity|]). now left.
    - destruct bs as [|b bs']; [injection E as <- <- <- <- <-; exists [], [], [], s, n; split; [constructor|]; split; [apply P0|]; repeat (split; [assumption || reflexivity|]); now left|].
      rewrite t_loop_next in E. set (bs := b :: bs') in *. pose proof (c_next_oks bs) as Nx. destruct (c_next bs) as [[e rest]| | |] eqn:En; cbn [oks] in Nx; try contradiction.
      2:{ injection E as <- <- <- <- <-. exists [], bs, [], s, n. split; [constructor|]. split; [apply P0|]. repeat (split; [assumption || reflexivity|]). right. right.
          repeat (split; [reflexivity || discriminate|]). split; [intros e rest' F; congruence|reflexivity]. }
      destruct Nx as [Sg Sh]. cbn [fst snd] in Sg, Sh. pose proof (c_handle_oks t e _ G St W Sg) as K. pose proof (handle_erase t e v n G St W) as He. rewrite <- He in K.
      destruct (o_handle t e v n) as [[[v1 n1] evs1]| | |] eqn:Eh; cbn [rmap oks] in K; try contradiction; cbn [rmap conv eres fst] in He, E.
      2:{ injection E as <- <- <- <- <-. exists [], bs, [], s, n. split; [constructor|]. split; [apply P0|]. repeat (split; [assumption || reflexivity|]). right. right.
          repeat (split; [reflexivity || discriminate|]). split; [intros e' rest' F; congruence|]. unfold c_next in En.
          destruct (c_nested bs) as [[sub r]| | |]; cbn [bind] in En; try discriminate En. destruct (c_deser cEntry sub) as [[x y]| | |]; cbn [bind] in En; try discriminate En.
          destruct (c_entry x); cbn [bind] in En; try discriminate En. now injection En. }
      destruct (raises s evs1) as [s2 threw] eqn:R. destruct threw.
      + injection E as <- <- <- <- <-. exists [], bs, [], s, n. split; [constructor|]. split; [apply P0|]. repeat (split; [assumption || reflexivity|]). right. left.
        split; [reflexivity|]. destruct (handle_events _ _ _ _ _ _ _ Eh) as [->|[ev ->]]; [discriminate R|]. rewrite raises_one in R. exists e, v1, ev. auto.
      + unfold shorter in Sh. destruct (IH v1 n1 s2 rest v' n' s' left o K ltac:(lia) E) as (es & tail & evs & s3 & n3 & D & Q & W' & Ha & R' & Z).
        exists (e :: es), tail, (evs1 ++ evs), s3, n3. split; [econstructor; eassumption|]. split; [eapply P1; eassumption|]. split; [exact W'|].
        split; [cbn [c_handle_all]; now rewrite <- He|]. split; [|exact Z]. now rewrite (raises_app _ _ _ _ R).
  Qed.
  Lemma t_replay_inv (P : rule) t : cgen t = true -> c_state t = true -> (forall v n, P [] v n [] v n) -> step_rule t P ->
    forall v n s bs v' n' s' left o, cwt t (erase v) = true -> t_replay subs t v n s bs = ((v', n', s'), left, o) ->
    exists es rest evs s1 n1, c_decodes bs es rest /\ P es v n evs v' n1 /\ cwt t (erase v') = true /\ c_handle_all t es (erase v) = Ok (erase v') /\
      raises s evs = (s1, false) /\ stops t v' n1 n' s1 s' rest left o.
  Proof. intros G St P0 P1 v n s bs v' n' s' left o W. now apply t_loop_inv with (P := P). Qed.

  (** With nobody throwing. *)
  Definition quiet : Prop := forall f s ev, In f subs -> snd (f s ev) = false.
  Lemma raise_quiet s ev : quiet -> snd (raise subs s ev) = false.
  Proof.
    unfold quiet. revert s. induction subs as [|f l IH]; intros s Q; [reflexivity|]. cbn. pose proof (Q f s ev (or_introl eq_refl)) as F. destruct (f s ev) as [s2 []]; [discriminate F|].
    apply IH. intros g s3 ev' I. apply Q. now right.
  Qed.
  Lemma raises_quiet s evs : quiet -> snd (raises s evs) = false.
  Proof. intros Q. revert s. induction evs as [|ev evs IH]; intros s; [reflexivity|]. cbn. pose proof (raise_quiet s ev Q) as R. destruct (raise subs s ev) as [s2 []]; [discriminate R|]. apply IH. Qed.
  Lemma raises_snoc s evs evs' : quiet -> fst (raises s (evs ++ evs')) = fst (raises (fst (raises s evs)) evs').
  Proof. intros Q. pose proof (raises_quiet s evs Q) as R. destruct (raises s evs) as [s2 []] eqn:E; [discriminate R|]. now rewrite (raises_app _ _ _ _ E). Qed.
  Lemma t_loop_quiet t : quiet -> forall fuel v n s evs bs, let '(w, l, o) := t_loop subs fuel t v n (fst (raises s evs)) bs in
    let '((v', n', evs'), o') := loop fuel (o_replay_step t) (v, n, evs) bs in w = (v', n', fst (raises s evs')) /\ o = (do _ <- o'; Ok tt).
  Proof.
    intros Q. induction fuel as [|fuel IH]; intros v n s evs bs; [destruct bs; now split|]. destruct bs as [|b bs']; [now split|]. rewrite t_loop_next. set (bs := b :: bs').
    change (loop (Datatypes.S fuel) (o_replay_step t) (v, n, evs) bs) with (let '(s', r) := o_replay_step t (v, n, evs) bs in try s' r (fun rest => loop fuel (o_replay_step t) s' rest)).
    rewrite o_step_next. destruct (c_next bs) as [[e rest]| | |]; cbn [bind try]; try now split.
    destruct (o_handle t e v n) as [[[v1 n1] evs1]| | |] eqn:Eh; cbn [bind try conv]; try now split.
    pose proof (raises_quiet (fst (raises s evs)) evs1 Q) as R. pose proof (raises_snoc s evs evs1 Q) as Sn. destruct (raises (fst (raises s evs)) evs1) as [s2 []]; [discriminate R|]. cbn [fst] in Sn.
    rewrite <- Sn. apply IH.
  Qed.
End Proofs.

(** Replay may be cut between entries. *)
Lemma c_step_consuming c : consuming (c_replay_step c).
Proof.
  intros s bs s' rest E. rewrite c_step_next in E. pose proof (c_next_oks bs) as Nx. destruct (c_next bs) as [[e r]| | |]; cbn [bind try] in E; try discriminate E.
  destruct (c_handle c e s); cbn [bind try] in E; try discriminate E. injection E as _ <-. destruct Nx as [_ Sh]. exact Sh.
Qed.
Lemma c_replay_cut c bs es rest : c_decodes bs es rest -> forall w w', c_handle_all c es w = Ok w' -> c_replay c w bs = c_replay c w' rest.
Proof.
  induction 1 as [bs|bs e rest es tail En D IH]; intros w w' Ha; cbn [c_handle_all] in Ha; [now injection Ha as ->|].
  destruct (c_handle c e w) as [w1| | |] eqn:Eh; try discriminate Ha. cbn [bind] in Ha. rewrite <- (IH w1 w' Ha). pose proof (c_next_oks bs) as Nx. rewrite En in Nx. destruct Nx as [_ Sh]. cbn [snd] in Sh.
  unfold shorter in Sh. unfold c_replay, run. destruct bs as [|b bs']; [cbn in Sh; lia|]. cbn [length loop]. rewrite c_step_next, En. cbn [bind]. rewrite Eh. cbn [bind try].
  rewrite (loop_fuel _ (c_step_consuming c) (length bs') (length rest)); [reflexivity|cbn in Sh; lia|lia].
Qed.
