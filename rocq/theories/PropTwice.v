(** C96: entries that arrive more than once. *)
From Verif Require Import Base Varint WireFmt Utf8 Types Ser Spec De Log State StateSpec ValInd VarintProofs WireProofs SerProofs
  TypeProofs EqProofs DeProofs RoundTrip NormProofs LogProofs TreeProofs CohProofs HandleProofs OpProofs SimProofs Examples ExecProofs ThreadProofs Commute PropReplay PropCommute
  PropColl PropState PropHist PropCompact.

Lemma update_here m t bs v : ty_ok t = true -> state_ty t = true -> is_box t = false -> wt t v = true -> bytes_ok bs ->
  let '(w, o) := handle_update m t bs v in handle_update m t bs w = (w, o).
Proof.
  intros O S X W Hb. destruct (handle_update m t bs v) as [w o] eqn:E.
  assert (Ww : wt t w = true).
  { pose proof (handle_good m t O S [] KUpdate None bs v W Hb (Forall_nil _)) as G. rewrite handle_nil, E in G by assumption. tauto. }
  pose proof (handle_update_eq m t bs w S X Ww) as Q. pose proof (handle_update_eq m t bs v S X W) as P. rewrite E in P. destruct (prim t) eqn:R.
  - destruct (deserialize m t bs) as [[z y]|e| |]; inversion P; subst; exact Q.
  - destruct (base v) as [r|e| |] eqn:B; try (inversion P; subst; congruence).
    assert (B' : base w = Ok r).
    { assert (U : prim_under t = false) by (destruct t; try reflexivity; try discriminate X; exact R).
      pose proof (base_merge m t (dflt t r) bs O S U (wt_dflt t O r)) as BM. rewrite (base_dflt t r O S U) in BM.
      destruct (merge m t (dflt t r) bs) as [y o']. inversion P; subst. exact BM. }
    rewrite B' in Q. congruence.
Qed.

(** What a new entry of a map became, it becomes again. *)
Lemma merge_update m t bs r : forall y rest, ty_ok t = true -> state_ty t = true -> bytes_ok bs ->
  merge m t (dflt t r) bs = (y, Ok rest) -> handle m t [] KUpdate None bs y = (y, Ok tt).
Proof.
  assert (N : forall t y rest, ty_ok t = true -> state_ty t = true -> is_box t = false -> bytes_ok bs ->
    merge m t (dflt t r) bs = (y, Ok rest) -> handle m t [] KUpdate None bs y = (y, Ok tt)).
  { clear. intros t y rest O S X Hb M. pose proof (merge_good m t O (dflt t r) bs (wt_dflt t O r) Hb) as G. rewrite M in G. destruct G as [W _].
    rewrite handle_nil, handle_update_eq by assumption. destruct (prim t) eqn:Q.
    - assert (D : dflt t r = dflt t rt_default) by (destruct t; try discriminate Q; reflexivity). unfold deserialize. rewrite <- D, M. reflexivity.
    - assert (U : prim_under t = false) by (destruct t; try reflexivity; try discriminate X; exact Q).
      pose proof (base_merge m t (dflt t r) bs O S U (wt_dflt t O r)) as BM. rewrite (base_dflt t r O S U), M in BM. cbn [fst] in BM. rewrite BM, M. reflexivity. }
  induction t as [k| | | |t IH|t IH|n t IH|ts IH|k t IHk IHt|t IH|si fs IH|st vs IH|t IH|k t IH] using ty_ind'; intros y rest O S Hb M;
    try discriminate S; try (apply (N _ y rest O S eq_refl Hb M)).
  cbn [dflt merge] in M. destruct (merge m t (dflt t r) bs) as [x o] eqn:E. inversion M; subst. cbn [handle].
  rewrite (IH x rest O S Hb eq_refl). reflexivity.
Qed.

Lemma update_twice m t : ty_ok t = true -> state_ty t = true -> forall p bs v, wt t v = true -> bytes_ok bs -> Forall (fun n => n < 2 ^ 32) p ->
  let '(w, o) := handle m t p KUpdate None bs v in handle m t p KUpdate None bs w = (w, o).
Proof.
  induction t as [t IH] using child_ind. intros O S p bs v W Hb Hp.
  pose proof (handle_good m t O S p KUpdate None bs v W Hb Hp) as G.
  destruct (handle_cases m t p KUpdate None bs v O S W) as [s q t' x C Ss -> E|B -> E|E|E|kk t' r es k -> -> -> _ A E].
  - rewrite E in *. destruct (child_wt t v s t' x O W C) as (O' & W' & S'). specialize (S' S Ss). apply Forall_app in Hp.
    pose proof (IH v s t' x C O' S' q bs x W' Hb (proj2 Hp)) as K. destruct (handle m t' q KUpdate None bs x) as [x' o]. destruct G as [G _].
    rewrite <- (seg_put v s x'). rewrite (handle_child m t (put_child v s x') s t' x' q) by (first [assumption|exact (child_put _ _ _ _ _ _ C)|rewrite state_step_put; exact Ss]).
    rewrite K, put_child_put. reflexivity.
  - pose proof (update_here m t bs v O S B W Hb) as K. rewrite E in *. cbn [handle_here] in *. destruct (handle_update m t bs v) as [w o]. destruct G as [G _].
    rewrite handle_nil by assumption. exact K.
  - rewrite E. exact E.
  - rewrite E. exact E.
  - rewrite E in G |- *. destruct (merge m t' (dflt t' (nested r k)) bs) as [x [rest|e| |]] eqn:M; try exact E.
    cbn [ty_ok] in O. apply andb_prop in O. destruct O as [O' S'].
    rewrite handle_map, get_ins, N.eqb_refl. unfold at_key. rewrite (merge_update m t' bs _ x rest O' S' Hb M). cbn [put_key]. rewrite ins_ins. reflexivity.
Qed.

(** ** C96 *)

(** An update delivered twice in a row does what it does once: the same value and the same outcome, also when it fails. *)
Theorem c96_update : forall m t p bs v, ty_ok t = true -> state_ty t = true -> wt t v = true -> entry_ok (EUpdate p bs) ->
  let '(w, o) := handle_entry m t (EUpdate p bs) v in handle_entry m t (EUpdate p bs) w = (w, o).
Proof. intros m t p bs v O S W (Op & _ & Ob). exact (update_twice m t O S p bs v W Ob Op). Qed.
Print Assumptions c96_update.

(** A log, and the log as it arrives when updates are sent again until they are acknowledged. *)
Inductive resent : list entry -> list entry -> Prop :=
| ReNil : resent [] []
| ReNext e l l' : resent l l' -> resent (e :: l) (e :: l')
| ReAgain p bs l l' : resent (EUpdate p bs :: l) (EUpdate p bs :: l') -> resent (EUpdate p bs :: l) (EUpdate p bs :: EUpdate p bs :: l').

Lemma resent_in l l' : resent l l' -> forall P : entry -> Prop, Forall P l -> Forall P l'.
Proof. induction 1; intros P F; [constructor| |]; inversion F; subst; constructor; auto. Qed.

Theorem c96_resent : forall m t l l' v, ty_ok t = true -> state_ty t = true -> wt t v = true -> Forall entry_ok l -> resent l l' ->
  handle_all m t l' v = handle_all m t l v.
Proof.
  intros m t l l' v O S W F R. revert v W F. induction R as [|e l l' R IH|p bs l l' R IH]; intros v W F; [reflexivity| |].
  - inversion F as [|? ? Fe Fl]; subst. cbn [handle_all]. pose proof (handle_entry_good m t e v O S W Fe) as G.
    destruct (handle_entry m t e v) as [w [u|x| |]]; try reflexivity. destruct G as [G _]. auto.
  - rewrite <- (IH v W F). inversion F as [|? ? Fe Fl]; subst. pose proof (c96_update m t p bs v O S W Fe) as K.
    cbn [handle_all]. destruct (handle_entry m t (EUpdate p bs) v) as [w [[]|x| |]]; try reflexivity. rewrite K. reflexivity.
Qed.
Print Assumptions c96_resent.

(** From bytes: the same value and the same outcome, also of a log that fails part of the way. *)
Theorem c96_replay : forall m t l l' v, ty_ok t = true -> state_ty t = true -> wt t v = true -> is_root v = Ok true ->
  Forall (fun e => entry_ok e /\ lenN (enc (entry_val e)) < 2 ^ 64) l -> resent l l' ->
  replay m t v (concat (map entry_wire l')) = replay m t v (concat (map entry_wire l)).
Proof.
  intros m t l l' v O S W Rt F R. pose proof (resent_in _ _ R _ F) as F'. unfold replay. rewrite Rt.
  pose proof (replay_run m t l F [] v) as A. pose proof (replay_run m t l' F' [] v) as B. rewrite app_nil_r in A, B. rewrite A, B.
  rewrite (c96_resent m t l l' v O S W); [reflexivity| |exact R]. eapply Forall_impl; [|exact F]. cbn. tauto.
Qed.
Print Assumptions c96_replay.

Lemma entry_dec : forall a b : entry, {a = b} + {a <> b}.
Proof. repeat decide equality. Qed.

Lemma filter_len {A} (f : A -> bool) l : (length (filter f l) <= length l)%nat.
Proof. induction l as [|a l IH]; cbn; [lia|]. destruct (f a); cbn; lia. Qed.

Definition is_update (e : entry) : Prop := exists p bs, e = EUpdate p bs.
Definition takes (u : entry) (l : list entry) : list entry := filter (fun e => if entry_dec e u then true else false) l.
Definition drops (u : entry) (l : list entry) : list entry := filter (fun e => if entry_dec e u then false else true) l.
Lemma takes_drops u l : interleaved (takes u l) (drops u l) l.
Proof. unfold takes, drops. induction l as [|e l IH]; [constructor|]. cbn [filter]. destruct (entry_dec e u); constructor; exact IH. Qed.
Lemma takes_all u l : takes u l = repeat u (length (takes u l)).
Proof. unfold takes. induction l as [|e l IH]; [reflexivity|]. cbn [filter]. destruct (entry_dec e u); [|exact IH]. subst. cbn [length repeat]. f_equal. exact IH. Qed.
Lemma drops_in u l e : In e (drops u l) <-> In e l /\ e <> u.
Proof. unfold drops. rewrite filter_In. destruct (entry_dec e u); intuition congruence. Qed.

Lemma update_many m t p bs rest : ty_ok t = true -> state_ty t = true -> entry_ok (EUpdate p bs) -> forall n v, wt t v = true ->
  handle_all m t (repeat (EUpdate p bs) (S n) ++ rest) v = handle_all m t (EUpdate p bs :: rest) v.
Proof.
  intros O S F. induction n as [|n IH]; intros v W; [reflexivity|]. rewrite <- (IH v W). cbn [repeat app handle_all].
  pose proof (c96_update m t p bs v O S W F) as K. destruct (handle_entry m t (EUpdate p bs) v) as [w [[]|x| |]]; try reflexivity. rewrite K. reflexivity.
Qed.

(** Updates of places of which none is above another: what comes out is a matter of which of them arrived,
    not of how often or in what order. *)
Theorem c96_set : forall m t d d' v w, ty_ok t = true -> state_ty t = true -> wt t v = true ->
  (forall e, In e d <-> In e d') ->
  (forall e, In e d -> is_update e /\ entry_ok e /\ present v (entry_path e)) ->
  (forall e e', In e d -> In e' d -> e = e' \/ ~ comparable (entry_path e) (entry_path e')) ->
  (handle_all m t d v = (w, Ok tt) <-> handle_all m t d' v = (w, Ok tt)).
Proof.
  intros m t d d' v w O S. remember (length d) as n eqn:L. assert (B : (length d <= n)%nat) by lia. clear L.
  revert d d' v B. induction n as [|n IH]; intros d d' v B W I U A.
  - destruct d as [|u d]; [|cbn in B; lia]. destruct d' as [|u d']; [reflexivity|]. destruct (proj2 (I u)). left. reflexivity.
  - destruct d as [|u d]; [destruct d' as [|u d']; [reflexivity|destruct (proj2 (I u)); left; reflexivity]|].
    destruct (U u ltac:(left; reflexivity)) as ((p & bs & ->) & Fu & P). cbn [entry_path] in P. set (u := EUpdate p bs) in *.
    assert (Key : forall l, (forall e, In e l <-> In e (u :: d)) -> (handle_all m t l v = (w, Ok tt) <-> handle_all m t (u :: drops u l) v = (w, Ok tt))).
    { intros l Il. assert (Iu : In u (takes u l)).
      { unfold takes. apply filter_In. split; [apply Il; left; reflexivity|]. destruct (entry_dec u u); congruence. }
      rewrite (c87_logs m t p (takes u l) (drops u l) l v w P).
      - rewrite takes_all. destruct (length (takes u l)) as [|k] eqn:Lk; [destruct (takes u l); [destruct Iu|discriminate Lk]|].
        unfold u at 1. rewrite (update_many m t p bs _ O S Fu k v W). reflexivity.
      - rewrite takes_all. apply Forall_forall. intros e He. apply repeat_spec in He. subst e. exists []. rewrite app_nil_r. reflexivity.
      - apply Forall_forall. intros e He. apply drops_in in He. destruct He as [He Ne]. apply Il in He.
        destruct (A u e ltac:(left; reflexivity) He) as [X|X]; [congruence|exact X].
      - apply takes_drops. }
    rewrite (Key (u :: d)) by tauto. rewrite (Key d') by (intros e; symmetry; apply I). clear Key. cbn [handle_all].
    assert (St : forall q, not_above p q -> present v q -> present (fst (handle_entry m t u v)) q) by (intros q X Y; apply entry_stays; assumption).
    pose proof (handle_entry_good m t u v O S W Fu) as G. destruct (handle_entry m t u v) as [v1 [[]|x| |]]; try (split; intros X; discriminate X).
    destruct G as [W1 _]. cbn [fst] in St. apply IH.
    + assert (X : drops u (u :: d) = drops u d) by (unfold drops; cbn [filter]; destruct (entry_dec u u); congruence). rewrite X.
      cbn in B. unfold drops. pose proof (filter_len (fun e => if entry_dec e u then false else true) d). lia.
    + exact W1.
    + intros e. rewrite !drops_in, I. reflexivity.
    + intros e He. apply drops_in in He. destruct He as [He Ne]. destruct (U e He) as (X & Y & Z). repeat split; try assumption; try apply Y.
      apply St; [|exact Z]. destruct (A u e ltac:(left; reflexivity) He) as [Q|Q]; [congruence|]. rewrite <- (app_nil_r p). apply apart_above.
      intros (s & [C|C]); apply Q; exists s; cbn [u entry_path]; tauto.
    + intros e e' He He'. apply drops_in in He, He'. apply A; tauto.
Qed.
Print Assumptions c96_set.

(** A pop or a removal or a push is not like that. *)

(** A key removed cannot be removed again: the second entry fails and leaves everything as it is. *)
Theorem c96_remove : forall m t p k v w, ty_ok t = true -> state_ty t = true -> wt t v = true -> entry_ok (EMapRemove p k) ->
  (exists steps kk t' r es, walk t v steps = Some (TMap kk t', VMap r es, p)) ->
  handle_entry m t (EMapRemove p k) v = (w, Ok tt) -> handle_entry m t (EMapRemove p k) w = (w, Err InvalidData).
Proof.
  intros m t p k v w O S W F (steps & kk & t' & r & es & K) H. pose proof (handle_entry_good m t _ v O S W F) as G. rewrite H in G. destruct G as [Ww _].
  assert (R : EMapRemove p k = rel p (EMapRemove [] k)) by (cbn [rel]; rewrite ?app_nil_r; reflexivity).
  rewrite R in H. rewrite (handle_at m (EMapRemove [] k) steps t v _ _ p O S W K) in H. unfold handle_entry in H. cbn [entry_path entry_kind entry_key entry_bytes handle] in H.
  destruct (assoc k es) eqn:Ak; [|discriminate H]. inversion H; subst w. clear H.
  pose proof (walk_put steps t v _ _ p (VMap r (im_remove k es)) K) as K2.
  apply (remove_absent_fails m kk t' k steps t _ r (im_remove k es) p O S Ww K2).
  destruct (walk_wt t steps v _ _ p O S W K) as (O' & _ & W'). apply wt_map_in in W'. rewrite (assoc_remove es k k (proj2 W')), N.eqb_refl. reflexivity.
Qed.
Print Assumptions c96_remove.

(** A push delivered twice puts the item there twice. *)
Theorem c96_push : forall m t steps t' r l p bs v v1, ty_ok t = true -> state_ty t = true -> wt t v = true -> bytes_ok bs ->
  walk t v steps = Some (TList t', VList r l, p) -> handle_entry m t (EListPush p bs) v = (v1, Ok tt) ->
  exists x y v2, walk t v1 steps = Some (TList t', VList r (l ++ [x]), p) /\ handle_entry m t (EListPush p bs) v1 = (v2, Ok tt) /\
    walk t v2 steps = Some (TList t', VList r (l ++ [x; y]), p) /\ veqb x y = true.
Proof.
  intros m t steps t' r l p bs v v1 O S W Hb K H.
  assert (R : EListPush p bs = rel p (EListPush [] bs)) by (cbn [rel]; rewrite ?app_nil_r; reflexivity). rewrite R in *. clear R.
  destruct (walk_wt t steps v _ _ p O S W K) as (O' & _ & W').
  rewrite (handle_at m (EListPush [] bs) steps t v _ _ p O S W K) in H. unfold handle_entry in H. cbn [entry_path entry_kind entry_key entry_bytes handle] in H.
  destruct (merge m t' (dflt t' (nested r (lenN l))) bs) as [x [rest|e| |]] eqn:M; try discriminate H. inversion H; subst v1. clear H.
  cbn [ty_ok] in O'. apply andb_prop in O'. destruct O' as [O' S'].
  pose proof (merge_good m t' O' (dflt t' (nested r (lenN l))) bs (wt_dflt t' O' _) Hb) as Gx. rewrite M in Gx. destruct Gx as [Gx _].
  set (x2 := VList r (l ++ [x])). assert (Wx2 : wt (TList t') x2 = true).
  { unfold x2. cbn [wt] in *. rewrite forallb_app. cbn [forallb]. rewrite W', Gx. reflexivity. }
  pose proof (walk_put steps t v _ _ p x2 K) as K1. pose proof (put_at_wt steps t v _ _ p x2 O W K Wx2) as W1.
  destruct (c51_decode m t' (dflt t' (nested r (lenN l))) (dflt t' (nested r (lenN (l ++ [x])))) bs) as [Eo Es].
  { apply wt_dflt, O'. } { apply wt_dflt, O'. } { unfold same. rewrite !norm_dflt. reflexivity. }
  pose proof (merge_good m t' O' (dflt t' (nested r (lenN (l ++ [x])))) bs (wt_dflt t' O' _) Hb) as Gy.
  rewrite (handle_at m (EListPush [] bs) steps t _ _ _ p O S W1 K1). unfold handle_entry. cbn [entry_path entry_kind entry_key entry_bytes handle x2].
  rewrite M in Eo, Es. destruct (merge m t' (dflt t' (nested r (lenN (l ++ [x])))) bs) as [y o] eqn:M2. cbn [fst snd] in *. subst o. destruct Gy as [Gy _].
  exists x, y. eexists. split; [exact K1|]. split; [reflexivity|]. split; [|exact (norm_veqb t' x y Gx Gy Es)].
  rewrite (walk_put steps t _ _ _ p _ K1). rewrite <- app_assoc. reflexivity.
Qed.
Print Assumptions c96_push.

(** A pop delivered twice takes two items, or fails when there is no second one. *)
Theorem c96_pop : forall m t steps t' r l x p v, ty_ok t = true -> state_ty t = true -> wt t v = true ->
  walk t v steps = Some (TList t', VList r (l ++ [x]), p) ->
  exists v1, handle_entry m t (EListPop p) v = (v1, Ok tt) /\ walk t v1 steps = Some (TList t', VList r l, p) /\
    (l = [] -> handle_entry m t (EListPop p) v1 = (v1, Err InvalidData)) /\
    (forall l' y, l = l' ++ [y] -> exists v2, handle_entry m t (EListPop p) v1 = (v2, Ok tt) /\ walk t v2 steps = Some (TList t', VList r l', p)).
Proof.
  intros m t steps t' r l x p v O S W K.
  assert (R : EListPop p = rel p (EListPop [])) by (cbn [rel]; rewrite ?app_nil_r; reflexivity). rewrite R in *. clear R.
  destruct (walk_wt t steps v _ _ p O S W K) as (_ & _ & W'). set (x2 := VList r l).
  assert (Wx2 : wt (TList t') x2 = true) by (unfold x2; cbn [wt] in *; rewrite forallb_app in W'; apply andb_prop in W'; tauto).
  pose proof (walk_put steps t v _ _ p x2 K) as K1. pose proof (put_at_wt steps t v _ _ p x2 O W K Wx2) as W1.
  exists (put_at t v steps x2). split.
  { rewrite (handle_at m (EListPop []) steps t v _ _ p O S W K). unfold handle_entry. cbn [entry_path entry_kind entry_key entry_bytes handle]. rewrite removelast_last.
    destruct (l ++ [x]) eqn:E; [apply app_eq_nil in E; destruct E as [_ E]; discriminate E|reflexivity]. }
  split; [exact K1|]. rewrite (handle_at m (EListPop []) steps t _ _ _ p O S W1 K1). unfold handle_entry. cbn [entry_path entry_kind entry_key entry_bytes handle x2]. split.
  - intros ->. unfold x2. rewrite (put_at_put steps _ _ _ _ _ _ _ K). reflexivity.
  - intros l' y ->. destruct (l' ++ [y]) as [|a b] eqn:E; [apply app_eq_nil in E; destruct E as [_ E]; discriminate E|]. rewrite <- E, removelast_last.
    eexists. split; [reflexivity|]. apply (walk_put steps t _ _ _ p _ K1).
Qed.
Print Assumptions c96_pop.

(** Sending a whole log of updates again is not harmless: a later entry may have made room for something else, and an
    older update that comes late undoes what came after it. *)
Theorem c96_late_refuted :
  ~ (forall m t l v w, ty_ok t = true -> state_ty t = true -> wt t v = true -> Forall is_update l ->
     handle_all m t l v = (w, Ok tt) -> snd (handle_all m t (l ++ l) v) = Ok tt) /\
  ~ (forall m t u l v w, ty_ok t = true -> state_ty t = true -> wt t v = true -> Forall is_update (u :: l) -> present v (entry_path u) ->
     handle_all m t (u :: l) v = (w, Ok tt) -> handle_all m t (u :: l ++ [u]) v = (w, Ok tt)).
Proof.
  split; intros H.
  - specialize (H Release (TEnum true [((0, true), [(fst_ 0, TInt U8)]); ((1, true), [])]) [EUpdate [0; 0] [5]; EUpdate [] [1]]
      (VEnum 0 true (Some (nested ex_rt 0)) [(fst_ 0, VInt U8 3)]) (VEnum 1 true (Some (nested ex_rt 1)) []) eq_refl eq_refl eq_refl).
    assert (F : Forall is_update [EUpdate [0; 0] [5]; EUpdate [] [1]]) by (repeat constructor; do 2 eexists; reflexivity).
    specialize (H F eq_refl). vm_compute in H. discriminate H.
  - specialize (H Release (TInt U8) (EUpdate [] [5]) [EUpdate [] [6]] (VInt U8 0) (VInt U8 6) eq_refl eq_refl eq_refl).
    assert (F : Forall is_update [EUpdate [] [5]; EUpdate [] [6]]) by (repeat constructor; do 2 eexists; reflexivity).
    specialize (H F ltac:(constructor) eq_refl). vm_compute in H. discriminate H.
Qed.
Print Assumptions c96_late_refuted.

Example c96_case :
  let t := TMap K8 tPoint in let v := VMap ex_rt [(3, vPoint (nested ex_rt 3) 1 2 3)] in
  let a := EUpdate [3; 0] [14] in let b := EUpdate [3; 1] [6] in let c := EUpdate [5] [] in
  handle_all Debug t [a; b] v = (VMap ex_rt [(3, vPoint (nested ex_rt 3) 7 3 3)], Ok tt) /\
  handle_all Debug t [b; a; a; b; a] v = handle_all Debug t [a; b] v /\
  resent [c; EUpdate [5; 0] [2]] [c; c; c; EUpdate [5; 0] [2]] /\
  handle_all Debug t [c; c; c; EUpdate [5; 0] [2]] v = handle_all Debug t [c; EUpdate [5; 0] [2]] v /\
  handle_all Debug t [c; EUpdate [5; 0] [2]; c; EUpdate [5; 0] [4]] v <> handle_all Debug t [c; EUpdate [5; 0] [2]] v /\
  handle_all Debug t [EMapRemove [] 3; EMapRemove [] 3] v = (VMap ex_rt [], Err InvalidData) /\
  handle_all Debug (TList (TInt U8)) [EListPush [] [7]; EListPush [] [7]; EListPop []; EListPop []; EListPop []] (VList ex_rt []) = (VList ex_rt [], Err InvalidData).
Proof.
  cbv zeta. split; [vm_compute; reflexivity|]. split; [vm_compute; reflexivity|]. split; [apply ReAgain, ReAgain; repeat constructor|].
  split; [vm_compute; reflexivity|]. split; [vm_compute; discriminate|]. split; vm_compute; reflexivity.
Qed.
