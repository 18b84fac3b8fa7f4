(** Equal values feed the same data to a hasher. *)
From Verif Require Import Base Varint WireFmt Utf8 Types Hash ValInd TypeProofs EqProofs DeProofs.

Definition HF (t : ty) : Prop := hash_ty t = true -> forall a b, wt t a = true -> wt t b = true ->
  veqb a b = true -> hfeed a = hfeed b.

Lemma items_feed t : HF t -> hash_ty t = true -> forall l1 l2, forallb (wt t) l1 = true -> forallb (wt t) l2 = true ->
  eq_items l1 l2 = true -> lenN l1 = lenN l2 /\ flat_map hfeed l1 = flat_map hfeed l2.
Proof.
  intros H T. induction l1 as [|x l1 IH]; intros [|y l2] W1 W2 E; try discriminate E; [auto|].
  cbn [forallb eq_items flat_map] in *. bprop. destruct (IH l2) as [L F]; auto.
  split; [unfold lenN in *; cbn [length]; lia|]. f_equal; [now apply H|exact F].
Qed.

Definition ffeed := flat_map (fun p : finfo * val => let '(fi, x) := p in if f_eq fi && f_hash fi then hfeed x else []).

Lemma fields_feed ts : Forall (fun p => HF (snd p)) ts ->
  forallb (fun p : finfo * ty => let '(fi, t) := p in negb (f_eq fi && f_hash fi) || hash_ty t) ts = true ->
  forall fs gs, wt_fields ts fs = true -> wt_fields ts gs = true -> eq_fields fs gs = true -> ffeed fs = ffeed gs.
Proof.
  induction 1 as [|[fi t] ts H _ IH]; intros T [|[fj x] fs] [|[fk y] gs] W1 W2 E; try discriminate W1; try discriminate W2; [reflexivity|].
  cbn [forallb wt_fields eq_fields] in *. bprop.
  repeat match goal with X : finfo_eqb _ _ = true |- _ => apply finfo_eqb_eq in X end. subst fj fk.
  unfold ffeed. cbn [flat_map]. f_equal; [|now apply IH].
  destruct (f_eq fi && f_hash fi) eqn:EH; [|reflexivity]. apply andb_true_iff in EH. destruct EH as [E1 E2].
  rewrite E1 in *. cbn [snd] in H. apply H; auto.
Qed.

Theorem equal_feeds t : HF t.
Proof.
  induction t as [k| | | |t IH|t IH|n t IH|ts IH|k t IHk IHt|t IH|si fs IH|st vs IH|t IH|k t IH]
    using ty_ind'; intros T a b Wa Wb E; destruct a; try discriminate Wa; destruct b; try discriminate Wb.
  - cbn in *. bprop. repeat match goal with X : ikind_eqb _ _ = true |- _ => apply ikind_eqb_eq in X end.
    subst. do 2 f_equal. lia.
  - cbn in *. apply Bool.eqb_prop in E. now subst.
  - cbn in *. apply list_eqb_eq in E. now subst.
  - cbn in *. apply list_eqb_eq in E. now subst.
  - destruct o, o0; try discriminate E; [|reflexivity]. cbn in *. f_equal. now apply IH.
  - cbn [wt hfeed hash_ty] in *. change (eq_items l l0 = true) in E. destruct (items_feed t IH T l l0 Wa Wb E) as [-> ->]. reflexivity.
  - cbn [wt hfeed hash_ty] in *. bprop. change (eq_items l l0 = true) in E. destruct (items_feed t IH T l l0) as [-> ->]; auto.
  - change (eq_items l l0 = true) in E. rewrite !wt_tup_eq in *. cbn [hash_ty hfeed] in *.
    revert l l0 Wa Wb E T. induction IH as [|t ts H _ IH]; intros [|x l] [|y l0] Wa Wb E T; try discriminate Wa; try discriminate Wb; [reflexivity|].
    cbn [wt_list forallb eq_items flat_map] in *. bprop. f_equal; [now apply H|now apply IH].
  - discriminate T.
  - cbn in *. now apply IH.
  - rewrite wt_struct_eq in *. bprop. change (eq_fields fs0 fs1 = true) in E.
    exact (fields_feed fs IH T fs0 fs1 ltac:(assumption) ltac:(assumption) E).
  - rewrite wt_enum_eq in *. bprop. change ((tag =? tag0) && eq_fields fs fs0 = true) in E. bprop.
    assert (tag = tag0) by lia. subst tag0.
    destruct (find_variant vs tag) as [[[tg c'] ts]|] eqn:F; [|discriminate]. bprop.
    apply find_variant_in in F. destruct F as [F _]. rewrite Forall_forall in IH. specialize (IH _ F). cbn [snd] in IH.
    cbn [hash_ty] in T. rewrite forallb_forall in T. specialize (T _ F). cbn [snd] in T.
    cbn [hfeed]. f_equal.
    exact (fields_feed ts IH T fs fs0 ltac:(assumption) ltac:(assumption) ltac:(assumption)).
  - cbn [wt hfeed hash_ty] in *. change (eq_items l l0 = true) in E. destruct (items_feed t IH T l l0 Wa Wb E) as [-> ->]. reflexivity.
  - discriminate T.
Qed.
