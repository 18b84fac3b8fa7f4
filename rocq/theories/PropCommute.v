(** C87: entries addressed to different places. *)
From Verif Require Import Base Varint WireFmt Utf8 Types Ser Spec De Log State StateSpec ValInd VarintProofs WireProofs SerProofs
  TypeProofs EqProofs DeProofs RoundTrip NormProofs LogProofs TreeProofs CohProofs HandleProofs OpProofs Examples Commute PropReplay.

(** Two entries of which neither path leads to the other: each has the outcome that it has without the other, and in
    either order they make the same tree, but for the order of the keys of one map. *)
Theorem c87_commute : forall m t e1 e2 v, ~ comparable (entry_path e1) (entry_path e2) ->
  let '(v1, o1) := handle_entry m t e1 v in let '(v2, o2) := handle_entry m t e2 v in
  exists v12 v21, handle_entry m t e2 v1 = (v12, o2) /\ handle_entry m t e1 v2 = (v21, o1) /\ reordered v12 v21.
Proof.
  intros m t e1 e2 v C. pose proof (handle_swaps m t _ (entry_kind e1) (entry_key e1) (entry_bytes e1) _ (entry_kind e2) (entry_key e2) (entry_bytes e2) v C) as (A & B & R & _).
  fold (handle_entry m t e1 v) (handle_entry m t e2 v) in *. destruct (handle_entry m t e1 v) as [v1 o1], (handle_entry m t e2 v) as [v2 o2]. cbn [fst snd] in *.
  fold (handle_entry m t e1 v2) (handle_entry m t e2 v1) in *. destruct (handle_entry m t e1 v2) as [v21 o], (handle_entry m t e2 v1) as [v12 o']. cbn [fst snd] in *.
  subst. exists v12, v21. auto.
Qed.
Print Assumptions c87_commute.

(** For well-typed states the two are equal by [==]. *)
Theorem c87_equal : forall m t e1 e2 v, ty_ok t = true -> state_ty t = true -> wt t v = true -> entry_ok e1 -> entry_ok e2 ->
  ~ comparable (entry_path e1) (entry_path e2) ->
  veqb (fst (handle_entry m t e2 (fst (handle_entry m t e1 v)))) (fst (handle_entry m t e1 (fst (handle_entry m t e2 v)))) = true.
Proof.
  intros m t e1 e2 v O S W O1 O2 C. pose proof (c87_commute m t e1 e2 v C) as H.
  pose proof (handle_entry_good m t e1 v O S W O1) as W1. pose proof (handle_entry_good m t e2 v O S W O2) as W2.
  destruct (handle_entry m t e1 v) as [v1 o1], (handle_entry m t e2 v) as [v2 o2]. cbn [fst]. destruct W1 as [W1 _], W2 as [W2 _].
  pose proof (handle_entry_good m t e2 v1 O S W1 O2) as W12. pose proof (handle_entry_good m t e1 v2 O S W2 O1) as W21.
  destruct H as (v12 & v21 & E & F & R). rewrite E, F in *. destruct W12 as [W12 _], W21 as [W21 _]. exact (reordered_eq _ _ R t W12 W21).
Qed.
Print Assumptions c87_equal.

(** The same tree to the letter if one of the two paths is there already. *)
Theorem c87_exact : forall m t e1 e2 v, ~ comparable (entry_path e1) (entry_path e2) ->
  present v (entry_path e1) \/ present v (entry_path e2) ->
  fst (handle_entry m t e2 (fst (handle_entry m t e1 v))) = fst (handle_entry m t e1 (fst (handle_entry m t e2 v))).
Proof.
  assert (G : forall m t e1 e2 v, ~ comparable (entry_path e1) (entry_path e2) -> present v (entry_path e1) ->
    fst (handle_entry m t e2 (fst (handle_entry m t e1 v))) = fst (handle_entry m t e1 (fst (handle_entry m t e2 v)))).
  { intros m t e1 e2 v C P. destruct (handle_swaps m t _ (entry_kind e1) (entry_key e1) (entry_bytes e1) _ (entry_kind e2) (entry_key e2) (entry_bytes e2) v C) as (_ & _ & _ & X).
    apply X. exists (entry_path e1), []. rewrite app_nil_r. auto. }
  intros m t e1 e2 v C [P|P]; [now apply G|]. symmetry. apply G; [|exact P]. intros (s & E). apply C. exists s. tauto.
Qed.
Print Assumptions c87_exact.

Lemma under_apart p q r s : ~ comparable p q -> ~ comparable (p ++ r) (q ++ s).
Proof.
  revert q. induction p as [|a p IH]; intros q C; [destruct (C (comp_nil_l _))|]. destruct q as [|b q]; [destruct (C (comp_nil_r _))|].
  destruct (N.eq_dec a b) as [<-|D]; [|apply comp_head; exact D]. intros (u & E). assert (X : ~ comparable p q) by (intros X; apply C, comp_cons, X).
  apply (IH q X). exists u. cbn in E. destruct E as [E|E]; inversion E; auto.
Qed.
Lemma apart_above p q s : ~ comparable p q -> not_above (q ++ s) p.
Proof. intros C a r E. apply C. exists (s ++ a :: r). left. rewrite E, <- app_assoc. reflexivity. Qed.
Lemma under_above p s : not_above (p ++ s) p.
Proof. intros a r E. apply (f_equal (@length N)) in E. rewrite !app_length in E. cbn in E. lia. Qed.

Definition under (p : list N) (e : entry) : Prop := exists s, entry_path e = p ++ s.
(** Neither [p] nor below it, nor above. *)
Definition elsewhere (p : list N) (e : entry) : Prop := ~ comparable p (entry_path e).

Lemma swap_exact m t v p e1 e2 : present v p -> under p e1 -> elsewhere p e2 ->
  let '(v1, o1) := handle_entry m t e1 v in let '(v2, o2) := handle_entry m t e2 v in
  exists w, handle_entry m t e2 v1 = (w, o2) /\ handle_entry m t e1 v2 = (w, o1).
Proof.
  intros P (s1 & E1) C. assert (D : ~ comparable (entry_path e1) (entry_path e2)) by (rewrite E1, <- (app_nil_r (entry_path e2)); apply under_apart; exact C).
  pose proof (c87_commute m t e1 e2 v D) as H.
  destruct (handle_swaps m t _ (entry_kind e1) (entry_key e1) (entry_bytes e1) _ (entry_kind e2) (entry_key e2) (entry_bytes e2) v D) as (_ & _ & _ & X).
  assert (Y : apart v (entry_path e1) (entry_path e2)) by (exists p, s1; auto).
  specialize (X Y). fold (handle_entry m t e1 v) (handle_entry m t e2 v) in X. destruct (handle_entry m t e1 v) as [v1 o1], (handle_entry m t e2 v) as [v2 o2].
  destruct H as (a & b & Ha & Hb & _). cbn [fst] in X. fold (handle_entry m t e2 v1) (handle_entry m t e1 v2) in X. rewrite Ha, Hb in X. cbn [fst] in X. subst b. exists a. auto.
Qed.

Lemma entry_stays m t e v p : not_above (entry_path e) p -> present v p -> present (fst (handle_entry m t e v)) p.
Proof. apply handle_stays. Qed.

(** An entry from elsewhere moves over a log. *)
Lemma move m t p e rest w : elsewhere p e -> forall l v, Forall (under p) l -> present v p ->
  (handle_all m t (l ++ e :: rest) v = (w, Ok tt) <-> handle_all m t (e :: l ++ rest) v = (w, Ok tt)).
Proof.
  intros U. induction l as [|a l IH]; intros v F P; [reflexivity|]. inversion F as [|? ? Ua Fl]; subst.
  pose proof (swap_exact m t v p a e P Ua U) as X. destruct Ua as [s Ea].
  pose proof (entry_stays m t a v p ltac:(rewrite Ea; apply under_above) P) as P1.
  cbn [app handle_all]. destruct (handle_entry m t a v) as [v1 o1] eqn:Ha. cbn [fst] in P1. specialize (IH v1 Fl P1). cbn [handle_all] in IH.
  destruct (handle_entry m t e v) as [v2 o2] eqn:He. destruct X as (u & X1 & X2). rewrite X1 in IH. rewrite X2.
  destruct o1 as [[]|x| |], o2 as [[]|y| |]; try exact IH; try (split; intros H; try discriminate H; apply IH in H; discriminate H); split; intros H; discriminate H.
Qed.

(** A log that speaks of what is below [p] and one that speaks of other things can be mixed in any way; the result is
    that of one after the other. *)
Theorem c87_logs : forall m t p l1 l2 l v w, present v p ->
  Forall (under p) l1 -> Forall (elsewhere p) l2 -> interleaved l1 l2 l ->
  (handle_all m t l v = (w, Ok tt) <-> handle_all m t (l1 ++ l2) v = (w, Ok tt)).
Proof.
  intros m t p l1 l2 l v w P F1 F2 I. revert v P F1 F2. induction I as [|a l1 l2 l I IH|a l1 l2 l I IH]; intros v P F1 F2; [reflexivity| |].
  - inversion F1 as [|? ? [s E] F]; subst. cbn [app handle_all].
    pose proof (entry_stays m t a v p ltac:(rewrite E; apply under_above) P) as P1. destruct (handle_entry m t a v) as [v1 [u|x| |]]; try reflexivity. cbn [fst] in P1. now apply IH.
  - inversion F2 as [|? ? U F]; subst. rewrite (move m t p a l2 w U l1 v F1 P). cbn [handle_all].
    pose proof (entry_stays m t a v p ltac:(rewrite <- (app_nil_r (entry_path a)); apply apart_above; exact U) P) as P1. destruct (handle_entry m t a v) as [v1 [u|x| |]]; try reflexivity. cbn [fst] in P1. now apply IH.
Qed.
Print Assumptions c87_logs.

(** Replayed from bytes: any two ways of mixing the two logs. *)
Theorem c87_replay : forall m t p l1 l2 l l' v w, present v p -> is_root v = Ok true ->
  Forall (under p) l1 -> Forall (elsewhere p) l2 -> interleaved l1 l2 l -> interleaved l1 l2 l' ->
  Forall (fun e => entry_ok e /\ lenN (enc (entry_val e)) < 2 ^ 64) (l1 ++ l2) ->
  replay m t v (concat (map entry_wire l)) = (w, Ok tt) -> replay m t v (concat (map entry_wire l')) = (w, Ok tt).
Proof.
  intros m t p l1 l2 l l' v w P Rt F1 F2 I I' O.
  assert (K : forall k, interleaved l1 l2 k -> (replay m t v (concat (map entry_wire k)) = (w, Ok tt) <-> handle_all m t (l1 ++ l2) v = (w, Ok tt))).
  { intros k J. rewrite <- (c87_logs m t p l1 l2 k v w P F1 F2 J). unfold replay. rewrite Rt.
    assert (Ok' : Forall (fun e => entry_ok e /\ lenN (enc (entry_val e)) < 2 ^ 64) k).
    { apply Forall_app in O. destruct O as [A B]. clear - J A B. induction J; [constructor| |]; [inversion A|inversion B]; subst; constructor; auto. }
    pose proof (replay_run m t k Ok' [] v) as H. rewrite app_nil_r in H. rewrite H.
    destruct (handle_all m t k v) as [v' [[]|x| |]]; cbn; split; intros E; try discriminate E; exact E. }
  intros H. apply (K l' I'). apply (K l I). exact H.
Qed.
Print Assumptions c87_replay.

(** That the order never matters is false: two new keys of a map are in the order of the entries, which the bytes show;
    and entries of which one path leads to the other do not commute. *)
Theorem c87_order_refuted :
  ~ (forall m t e1 e2 v, ~ comparable (entry_path e1) (entry_path e2) ->
     fst (handle_entry m t e2 (fst (handle_entry m t e1 v))) = fst (handle_entry m t e1 (fst (handle_entry m t e2 v)))) /\
  ~ (forall m t e1 e2 v, entry_path e1 <> entry_path e2 ->
     veqb (fst (handle_entry m t e2 (fst (handle_entry m t e1 v)))) (fst (handle_entry m t e1 (fst (handle_entry m t e2 v)))) = true).
Proof.
  split; intros H.
  - specialize (H Release (TMap K8 (TInt U8)) (EUpdate [1] [5]) (EUpdate [2] [6]) (VMap ex_rt [])). cbn [entry_path] in H.
    assert (C : ~ comparable [1] [2]) by (apply comp_head; discriminate). specialize (H C). vm_compute in H. discriminate H.
  - specialize (H Release (TList (TInt U8)) (EUpdate [1] [5]) (EListPush [] [7]) (VList ex_rt [VInt U8 1])).
    assert (C : [1] <> @nil N) by discriminate. specialize (H C). vm_compute in H. discriminate H.
Qed.
Print Assumptions c87_order_refuted.

Example c87_case :
  let t := TMap K8 tPoint in let v := VMap ex_rt [(3, vPoint (nested ex_rt 3) 1 2 3)] in
  let a := EUpdate [3; 0] [14] in let b := EUpdate [5] [] in let c := EUpdate [3; 2] [2] in
  ~ comparable (entry_path a) (entry_path b) /\ present v [3] /\
  handle_all Debug t [a; b; c] v = handle_all Debug t [b; a; c] v /\
  handle_all Debug t [a; b; c] v = (VMap ex_rt [(3, vPoint (nested ex_rt 3) 7 2 1); (5, vPoint (nested ex_rt 5) 0 0 0)], Ok tt) /\
  (exists w w', handle_all Debug t [b; EUpdate [6] []] v = (w, Ok tt) /\ handle_all Debug t [EUpdate [6] []; b] v = (w', Ok tt) /\ w <> w' /\ veqb w w' = true).
Proof.
  cbv zeta. split; [apply comp_head; discriminate|]. split; [econstructor; [reflexivity|constructor]|]. split; [vm_compute; reflexivity|].
  split; [vm_compute; reflexivity|]. eexists. eexists. split; [vm_compute; reflexivity|]. split; [vm_compute; reflexivity|]. split; [discriminate|vm_compute; reflexivity].
Qed.
