(** C88: leaving out what is overwritten. *)
From Verif Require Import Base Varint WireFmt Utf8 Types Ser Spec De Log State StateSpec ValInd VarintProofs WireProofs SerProofs
  TypeProofs EqProofs DeProofs RoundTrip NormProofs LogProofs TreeProofs CohProofs HandleProofs OpProofs Examples ExecProofs ThreadProofs Commute PropReplay PropCommute.

Lemma handle_nil m t key bs v : state_ty t = true -> is_box t = false -> wt t v = true -> handle m t [] KUpdate key bs v = handle_update m t bs v.
Proof.
  intros S B W. destruct t as [k| | | |t|t|n t|ts|kt vt|t|si fts|st vs|t|k t]; try discriminate S; try discriminate B;
    destruct v as [k' z|b| | | | | | | |y|c r fs|tag c r fs|r l|r es]; try discriminate W; try reflexivity.
  - rewrite wt_struct_eq in W. bprop. cbn [state_ty] in S. rewrite S in *. destruct r; [reflexivity|discriminate].
  - destruct (wt_enum_inv _ _ _ _ _ _ W) as (c' & fts & V & -> & Wf & Hst & Hb). cbn [state_ty] in S. subst st. destruct r; [reflexivity|discriminate].
Qed.

(** An update makes what it makes whatever was there, as long as it hangs at the same place. *)
Lemma update_forgets0 m t bs v v' w : state_ty t = true -> is_box t = false -> wt t v = true -> wt t v' = true -> (prim_under t = false -> base v' = base v) ->
  handle m t [] KUpdate None bs v' = (w, Ok tt) -> handle m t [] KUpdate None bs v = (w, Ok tt).
Proof.
  intros S X W W' B H. rewrite handle_nil in * by assumption. rewrite handle_update_eq in * by assumption.
  assert (P : prim_under t = prim t) by (destruct t; try reflexivity; discriminate X). rewrite P in B. destruct (prim t).
  - destruct (deserialize m t bs) as [[z y]|e| |]; try discriminate H. exact H.
  - rewrite (B eq_refl) in H. destruct (base v); try discriminate H. exact H.
Qed.
Lemma update_forgets m t bs : state_ty t = true -> forall v v' w, wt t v = true -> wt t v' = true -> (prim_under t = false -> base v' = base v) ->
  handle m t [] KUpdate None bs v' = (w, Ok tt) -> handle m t [] KUpdate None bs v = (w, Ok tt).
Proof.
  induction t as [k| | | |t IH|t IH|n t IH|ts IH|k t IHk IHt|t IH|si fs IH|st vs IH|t IH|k t IH] using ty_ind'; intros S v v' w W W' B H;
    try discriminate S; try (apply (update_forgets0 m _ bs v v' w S eq_refl W W' B H)).
  destruct v; try discriminate W. destruct v'; try discriminate W'. cbn [handle] in *.
  destruct (handle m t [] KUpdate None bs v') as [x o] eqn:E. inversion H; subst. rewrite (IH S v v' x W W' B E). reflexivity.
Qed.

(** The same below a map key that is not there yet. *)
Lemma update_merge m t bs r : state_ty t = true -> forall x y, wt t x = true -> (prim_under t = false -> base x = Ok r) ->
  handle m t [] KUpdate None bs x = (y, Ok tt) -> exists rest, merge m t (dflt t r) bs = (y, Ok rest).
Proof.
  assert (N : forall t x y, state_ty t = true -> is_box t = false -> wt t x = true -> (prim_under t = false -> base x = Ok r) ->
    handle m t [] KUpdate None bs x = (y, Ok tt) -> exists rest, merge m t (dflt t r) bs = (y, Ok rest)).
  { clear. intros t x y S X W B H. rewrite handle_nil, handle_update_eq in H by assumption.
    assert (P : prim_under t = prim t) by (destruct t; try reflexivity; discriminate X). rewrite P in B. destruct (prim t) eqn:Q.
    - assert (D : dflt t r = dflt t rt_default) by (destruct t; try discriminate Q; reflexivity). rewrite D. unfold deserialize in H.
      destruct (merge m t (dflt t rt_default) bs) as [z [rest|e| |]]; try discriminate H. inversion H; subst. eexists. reflexivity.
    - rewrite (B eq_refl) in H. destruct (merge m t (dflt t r) bs) as [z [rest|e| |]]; try discriminate H. inversion H; subst. eexists. reflexivity. }
  induction t as [k| | | |t IH|t IH|n t IH|ts IH|k t IHk IHt|t IH|si fs IH|st vs IH|t IH|k t IH] using ty_ind'; intros S x y W B H;
    try discriminate S; try (apply (N _ x y S eq_refl W B H)).
  destruct x; try discriminate W. cbn [handle] in H. destruct (handle m t [] KUpdate None bs x) as [x' o] eqn:E. inversion H; subst.
  destruct (IH S x x' W B E) as [rest M]. exists rest. cbn [dflt merge]. rewrite M. reflexivity.
Qed.

Lemma forgets_one m t : ty_ok t = true -> state_ty t = true -> forall p s kind key b bs v v1 w, wt t v = true -> bytes_ok b -> Forall (fun n => n < 2 ^ 32) (p ++ s) ->
  handle m t (p ++ s) kind key b v = (v1, Ok tt) -> handle m t p KUpdate None bs v1 = (w, Ok tt) -> handle m t p KUpdate None bs v = (w, Ok tt).
Proof.
  induction t as [t IH] using child_ind. intros O S p s kind key b bs v v1 w W Hb Hp H U.
  pose proof (handle_good m t O S (p ++ s) kind key b v W Hb Hp) as G. rewrite H in G. destruct G as [W1 _].
  assert (Top : p = [] -> handle m t p KUpdate None bs v = (w, Ok tt)).
  { intros ->. apply (update_forgets m t bs S v v1 w W W1); [|exact U]. intros P.
    pose proof (handle_base m t O S P ([] ++ s) kind key b v W) as B. rewrite H in B. exact B. }
  destruct p as [|a p]; [auto|]. clear Top.
  destruct (handle_cases m t ((a :: p) ++ s) kind key b v O S W) as [st q t' x C Ss E H'|B E _|E|E|kk t' r es k -> -> E -> A H']; try discriminate E; try congruence.
  - rewrite H' in H. destruct (handle m t' q kind key b x) as [x1 o] eqn:X. inversion H; subst. clear H H'.
    destruct (child_wt t v st t' x O W C) as (O' & W' & S'). specialize (S' S Ss).
    assert (Sp : (exists p', a :: p = seg v st ++ p' /\ q = p' ++ s) \/ (exists tag c r fs fn, v = VEnum tag c r fs /\ st = SField fn /\ a = tag /\ p = [])).
    { destruct st as [fn|i|k|]; destruct v; cbn [seg app] in *; try (injection E as <- <-; left; exists p; auto; fail); try (left; exists (a :: p); auto; fail).
      destruct p as [|fn' p]; [right; cbn in E; injection E as <- _; repeat eexists|]. injection E as <- <- <-. left. exists p. auto. }
    destruct Sp as [(p' & Ep & ->)|(tag & c & r & fs & fn & -> & -> & -> & ->)].
    + rewrite Ep in *. rewrite (handle_child m t v st t' x p') by assumption.
      rewrite <- (seg_put v st x1) in U. rewrite (handle_child m t (put_child v st x1) st t' x1 p') in U;
        [|assumption|assumption|assumption|exact (child_put _ _ _ _ _ _ C)|rewrite state_step_put; exact Ss].
      destruct (handle m t' p' KUpdate None bs x1) as [y o] eqn:Y. inversion U; subst.
      rewrite (IH v st t' x C O' S' p' s kind key b bs x x1 y W' Hb); [rewrite put_child_put; reflexivity| |exact X|exact Y].
      rewrite <- app_assoc in Hp. apply Forall_app in Hp. tauto.
    + exfalso. destruct t as [| | | | | | | | | | |stt vs| |]; try discriminate W. cbn [put_child] in U.
      destruct (wt_enum_inv _ _ _ _ _ _ W1) as (c' & fts & V & -> & Wf & Hst & Hbl). cbn [state_ty] in S. subst stt. destruct r as [r|]; [|discriminate].
      rewrite handle_enum, V, N.eqb_refl in U. discriminate U.
  - cbn in E. injection E as -> E. apply app_eq_nil in E. destruct E as [-> ->]. rewrite H' in H.
    destruct (merge m t' (dflt t' (nested r k)) b) as [x [rest|e| |]] eqn:M; try discriminate H. inversion H; subst. clear H.
    cbn [ty_ok] in O. apply andb_prop in O. destruct O as [O' S'].
    rewrite !handle_map in *. rewrite A. rewrite get_ins, N.eqb_refl in U. unfold at_key in *.
    destruct (handle m t' [] KUpdate None bs x) as [y o] eqn:Y. inversion U; subst. cbn [put_key]. rewrite ins_ins.
    destruct (update_merge m t' bs (nested r k) S' x y) as [rest' M']; [| |exact Y|rewrite M'; reflexivity].
    + pose proof (merge_good m t' O' (dflt t' (nested r k)) b (wt_dflt t' O' _) Hb) as Gm. rewrite M in Gm. tauto.
    + intros P. pose proof (base_merge m t' (dflt t' (nested r k)) b O' S' P (wt_dflt t' O' _)) as B. rewrite M in B. cbn [fst] in B. rewrite B. now apply base_dflt.
Qed.

Lemma all_below m t p bs : ty_ok t = true -> state_ty t = true -> forall l v v1 w, wt t v = true -> Forall entry_ok l -> Forall (under p) l ->
  handle_all m t l v = (v1, Ok tt) -> handle_entry m t (EUpdate p bs) v1 = (w, Ok tt) -> handle_entry m t (EUpdate p bs) v = (w, Ok tt).
Proof.
  intros O S. induction l as [|e l IH]; intros v v1 w W F U H E; [inversion H; subst; exact E|].
  inversion F as [|? ? Oe F']; subst. inversion U as [|? ? [s Es] U']; subst. cbn [handle_all] in H. pose proof (handle_entry_good m t e v O S W Oe) as G.
  destruct (handle_entry m t e v) as [v2 [[]|x| |]] eqn:He; try discriminate H. destruct G as [W2 _].
  pose proof (IH v2 v1 w W2 F' U' H E) as K. unfold handle_entry in He, K |- *. cbn [entry_path entry_kind entry_key entry_bytes] in *. rewrite Es in He.
  destruct Oe as (Op & _ & Ob). rewrite Es in Op. exact (forgets_one m t O S p s _ _ _ bs v v2 w W Ob Op He K).
Qed.

(** ** C88 *)

(** Whatever was done to a place, with all that is below: after an update of it, it is as if the update had come first.
    The place need not have been there. *)
Theorem c88_overwrite : forall m t p bs l v w, ty_ok t = true -> state_ty t = true -> wt t v = true -> Forall entry_ok l -> Forall (under p) l ->
  handle_all m t (l ++ [EUpdate p bs]) v = (w, Ok tt) -> handle_all m t [EUpdate p bs] v = (w, Ok tt).
Proof.
  intros m t p bs l v w O S W F U H. rewrite handle_all_app in H. destruct (handle_all m t l v) as [v1 [[]|x| |]] eqn:E; try discriminate H.
  cbn [handle_all] in *. destruct (handle_entry m t (EUpdate p bs) v1) as [w1 [[]|x| |]] eqn:E1; try discriminate H. inversion H; subst.
  rewrite (all_below m t p bs O S l v v1 w W F U E E1). reflexivity.
Qed.
Print Assumptions c88_overwrite.

Fixpoint starts_with (p q : list N) : bool :=
  match p, q with [], _ => true | a :: p', b :: q' => (a =? b) && starts_with p' q' | _, [] => false end.
Lemma starts_spec p : forall q, starts_with p q = true <-> exists s, q = p ++ s.
Proof.
  induction p as [|a p IH]; intros q; [split; [exists q; reflexivity|reflexivity]|]. destruct q as [|b q]; cbn.
  - split; [discriminate|]. intros [s E]. discriminate E.
  - rewrite andb_true_iff, N.eqb_eq, IH. split; [intros [-> [s ->]]; exists s; reflexivity|]. intros [s E]. injection E as <- ->. eauto.
Qed.

(** The log without the entries for [p] and what is below. *)
Definition without (p : list N) (l : list entry) : list entry := filter (fun e => negb (starts_with p (entry_path e))) l.

Lemma split_log p l : Forall (fun e => under p e \/ elsewhere p e) l ->
  interleaved (filter (fun e => starts_with p (entry_path e)) l) (without p l) l /\
  Forall (under p) (filter (fun e => starts_with p (entry_path e)) l) /\ Forall (elsewhere p) (without p l).
Proof.
  unfold without. induction 1 as [|e l H _ (I & A & B)]; [repeat split; constructor|]. cbn [filter].
  destruct (starts_with p (entry_path e)) eqn:E; cbn [negb].
  - split; [constructor; exact I|]. split; [|exact B]. constructor; [|exact A]. apply starts_spec. exact E.
  - split; [constructor; exact I|]. split; [exact A|]. constructor; [|exact B]. destruct H as [H|H]; [|exact H]. apply starts_spec in H. congruence.
Qed.
Lemma inter_end {A} (l1 l2 l : list A) u : interleaved l1 l2 l -> interleaved (l1 ++ [u]) l2 (l ++ [u]).
Proof. induction 1; cbn; repeat constructor; assumption. Qed.
Lemma inter_seq {A} (u : A) l : interleaved [u] l (l ++ [u]).
Proof. induction l; cbn; repeat constructor; assumption. Qed.

(** A log in which no entry is for a place above [p]: before an update of [p], the entries for [p] and what is below can be left out. *)
Theorem c88_compact : forall m t p bs l v w, ty_ok t = true -> state_ty t = true -> wt t v = true -> Forall entry_ok l -> present v p ->
  Forall (fun e => under p e \/ elsewhere p e) l ->
  handle_all m t (l ++ [EUpdate p bs]) v = (w, Ok tt) -> handle_all m t (without p l ++ [EUpdate p bs]) v = (w, Ok tt).
Proof.
  intros m t p bs l v w O S W F P U H. destruct (split_log p l U) as (I & A & B). set (l1 := filter _ l) in *. set (u := EUpdate p bs) in *.
  assert (Uu : under p u) by (exists []; rewrite app_nil_r; reflexivity).
  assert (F1 : Forall entry_ok l1) by (apply Forall_forall; intros e J; apply filter_In in J; rewrite Forall_forall in F; apply F; tauto).
  apply (c87_logs m t p (l1 ++ [u]) (without p l) (l ++ [u]) v w P) in H; [|apply Forall_app; auto|exact B|apply inter_end; exact I].
  apply (c87_logs m t p [u] (without p l) _ v w P); [auto|exact B|apply inter_seq|].
  rewrite handle_all_app in H |- *. destruct (handle_all m t (l1 ++ [u]) v) as [v1 [[]|x| |]] eqn:E; try discriminate H.
  pose proof (c88_overwrite m t p bs l1 v v1 O S W F1 A E) as K. fold u in K. rewrite K. exact H.
Qed.
Print Assumptions c88_compact.

(** A state can be sent instead of the log that made it: one update of the root, whatever is there. *)
Theorem c88_snapshot : forall m m' t l v v' u, ty_ok t = true -> state_ty t = true -> wt t v = true -> wt t u = true -> Forall entry_ok l ->
  handle_all m t l v = (v', Ok tt) -> lossless t v' = true -> lenN (enc v') < 2 ^ 32 ->
  exists w, handle_entry m' t (EUpdate [] (enc v')) u = (w, Ok tt) /\ veqb v' w = true /\ wt t w = true.
Proof.
  intros m m' t l v v' u O S W Wu F H L N. pose proof (handle_all_wt m t l O S F v W) as W'. rewrite H in W'. cbn [fst] in W'.
  destruct (update_same m' t v' O S (conj W' (conj L N)) u Wu) as (w & E & Sm & Ww). exists w. split; [exact E|]. split; [now apply (norm_veqb t)|exact Ww].
Qed.
Print Assumptions c88_snapshot.

(** With entries for places above it is false: the key may have to be there in between. *)
Theorem c88_above_refuted : ~ (forall m t p bs l v w, ty_ok t = true -> state_ty t = true -> wt t v = true -> Forall entry_ok l -> present v p ->
  handle_all m t (l ++ [EUpdate p bs]) v = (w, Ok tt) -> handle_all m t (without p l ++ [EUpdate p bs]) v = (w, Ok tt)).
Proof.
  intros H. specialize (H Release (TMap K8 (TInt U8)) [1] [9] [EMapRemove [] 1; EUpdate [1] [5]; EMapRemove [] 1] (VMap ex_rt [(1, VInt U8 3)]) (VMap ex_rt [(1, VInt U8 9)]) eq_refl eq_refl eq_refl).
  assert (F : Forall entry_ok [EMapRemove [] 1; EUpdate [1] [5]; EMapRemove [] 1]).
  { repeat constructor; cbn; intros; try lia; try discriminate; repeat constructor; try lia; try (injection H0 as <-; lia). }
  specialize (H F). assert (P : present (VMap ex_rt [(1, VInt U8 3)]) [1]) by (econstructor; [reflexivity|constructor]).
  specialize (H P eq_refl). vm_compute in H. discriminate H.
Qed.
Print Assumptions c88_above_refuted.

(** And what is left out must have gone well. *)
Example c88_case :
  let t := TMap K8 tPoint in let v := VMap ex_rt [(3, vPoint (nested ex_rt 3) 1 2 3)] in
  let a := EUpdate [3; 0] [14] in let b := EUpdate [5] [] in let c := EUpdate [3; 2] [2] in let u := EUpdate [3] [] in
  without [3] [a; b; c] = [b] /\
  handle_all Debug t [a; b; c; u] v = handle_all Debug t [b; u] v /\
  handle_all Debug t [b; u] v = (VMap ex_rt [(3, vPoint (nested ex_rt 3) 0 0 0); (5, vPoint (nested ex_rt 5) 0 0 0)], Ok tt) /\
  handle_all Debug t [EUpdate [5; 0] [2]; EUpdate [5] []] v = (v, Err InvalidData) /\
  handle_all Debug t [EUpdate [5] []; EUpdate [5; 0] [2]; EUpdate [5] []] v = handle_all Debug t [EUpdate [5] []] v.
Proof. vm_compute. repeat split. Qed.
