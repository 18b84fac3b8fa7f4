(** Encodings of equal values. *)
From Verif Require Import Base Varint WireFmt Utf8 Types Ser Spec ValInd VarintProofs WireProofs SerProofs TypeProofs EqProofs.
From Coq Require Import Permutation.

(** Types all of whose fields count for [==] (no [no_eq] fields); with [maps = false], without [HashMap] and [Map]. *)
Fixpoint compared (maps : bool) (t : ty) : bool :=
  match t with
  | TInt _ | TBool | TStr | TBytes => true
  | TOpt t | TVec t | TArr _ t | TBox t | TList t => compared maps t
  | TTup ts => forallb (compared maps) ts
  | THash k t => maps && compared maps k && compared maps t
  | TMap _ t => maps && compared maps t
  | TStruct _ fs => forallb (fun p : finfo * ty => let '(fi, t) := p in f_eq fi && compared maps t) fs
  | TEnum _ vs => forallb (fun va : (N * bool) * list (finfo * ty) =>
      forallb (fun p : finfo * ty => let '(fi, t) := p in f_eq fi && compared maps t) (snd va)) vs
  end.

Section Pairs.
  Context {K V : Type} (ek : K -> K -> bool) (ev : V -> V -> bool) (PK : K -> Prop) (PV : V -> Prop).
  Hypothesis EK : equiv_on PK ek.
  Hypothesis EV : equiv_on PV ev.

  Definition pair_eq (e e' : K * V) := ek (fst e) (fst e') = true /\ ev (snd e) (snd e') = true.

  Lemma sub_perm : forall l1 l2, length l1 = length l2 -> mok PK PV l1 -> mok PK PV l2 -> mdistinct ek l1 = true ->
    sub ek ev l1 l2 -> exists l2', Permutation l2 l2' /\ Forall2 pair_eq l1 l2'.
  Proof using EK.
    destruct EK as (Rf & Sy & Tr). induction l1 as [|[k x] l1 IH]; intros l2 L O1 O2 D S.
    - destruct l2; [|discriminate L]. exists []. split; constructor.
    - destruct (S (k, x)) as (e' & I' & E1 & E2); [now left|]. cbn in E1, E2. destruct (in_split _ _ I') as (a & b & ->).
      inversion O1 as [|? ? Ok1 Ok2]; subst. cbn [fst snd] in Ok1.
      assert (Oe : PK (fst e') /\ PV (snd e')) by (unfold mok in O2; rewrite Forall_forall in O2; now apply O2).
      assert (O3 : mok PK PV (a ++ b)).
      { unfold mok in *. rewrite Forall_app in *. destruct O2 as [Oa Ob]. inversion Ob; subst. now split. }
      cbn [mdistinct] in D. apply andb_true_iff in D. destruct D as [D1 D2]. apply negb_true_iff in D1.
      assert (S' : sub ek ev l1 (a ++ b)).
      { intros e He. destruct (S e) as (e2 & I2 & F1 & F2); [now right|].
        exists e2. split; [|now split]. rewrite in_app_iff in *.
        destruct I2 as [I2|[<-|I2]]; auto. exfalso.
        assert (X : existsb (fun e => ek k (fst e)) l1 = true).
        { apply existsb_exists. exists e. split; [exact He|].
          assert (PK (fst e)) by (unfold mok in Ok2; rewrite Forall_forall in Ok2; now apply Ok2).
          apply (Tr _ (fst e')); try tauto. apply Sy; tauto. }
        congruence. }
      destruct (IH (a ++ b)) as (l2' & P & F); try assumption; [rewrite app_length in *; cbn in L; lia|].
      exists (e' :: l2'). split; [|constructor; [split; assumption|exact F]].
      transitivity (e' :: a ++ b); [symmetry; apply Permutation_middle|now constructor].
  Qed.
End Pairs.

Section Rel.
  (** [R] is equality, or equality but for the order of the bytes. *)
  Context (maps : bool) (R : bytes -> bytes -> Prop).
  Hypothesis R_refl : forall x, R x x.
  Hypothesis R_app : forall a b c d, R a b -> R c d -> R (a ++ c) (b ++ d).
  Hypothesis R_len : forall a b, R a b -> length a = length b.
  Hypothesis R_trans : forall a b c, R a b -> R b c -> R a c.
  Hypothesis R_perm : maps = true -> forall A (f : A -> bytes) l l', Permutation l l' -> R (flat_map f l) (flat_map f l').

  Definition EB (t : ty) : Prop := forall a b, compared maps t = true -> wt t a = true -> wt t b = true -> veqb a b = true -> R (enc a) (enc b).

  Lemma rel_delimited t a b : wt t a = true -> wt t b = true -> R (enc a) (enc b) -> R (delimited a (enc a)) (delimited b (enc b)).
  Proof using R_refl R_app R_len.
    intros Wa Wb H. unfold delimited. rewrite (wt_vwty t a Wa), (wt_vwty t b Wb). destruct (wty t); [exact H|].
    unfold lenN. rewrite (R_len _ _ H). apply R_app; [apply R_refl|exact H].
  Qed.
  Lemma rel_left_out t a b : wt t a = true -> wt t b = true -> veqb a b = true -> R (enc a) (enc b) -> left_out a (enc a) = left_out b (enc b).
  Proof using R_len.
    intros Wa Wb E H. apply R_len in H.
    assert (X : match enc a with [] => true | _ => false end = match enc b with [] => true | _ => false end) by (now destruct (enc a), (enc b)).
    destruct t; destruct a; try discriminate Wa; destruct b; try discriminate Wb; try exact X; cbn [veqb left_out] in *.
    - apply Z.eqb_eq in E. now subst.
    - apply eqb_prop in E. now subst.
  Qed.
  Lemma rel_items t l1 : EB t -> compared maps t = true -> forall l2, forallb (wt t) l1 = true -> forallb (wt t) l2 = true -> eq_items l1 l2 = true ->
    R (flat_map (fun x => delimited x (enc x)) l1) (flat_map (fun x => delimited x (enc x)) l2).
  Proof using R_refl R_app R_len.
    intros I C. induction l1 as [|x l1 IH]; intros [|y l2] W1 W2 E; try discriminate E; [apply R_refl|].
    cbn in *. bprop. apply R_app; [|now apply IH]. apply (rel_delimited t); try assumption. now apply I.
  Qed.
  Lemma rel_tuple ts : Forall EB ts -> forallb (compared maps) ts = true -> forall l1 l2, wt_list ts l1 = true -> wt_list ts l2 = true -> eq_items l1 l2 = true ->
    R (flat_map (fun x => delimited x (enc x)) l1) (flat_map (fun x => delimited x (enc x)) l2).
  Proof using R_refl R_app R_len.
    induction 1 as [|t ts I _ IH]; intros C [|x l1] [|y l2] W1 W2 E; try discriminate W1; try discriminate W2; [apply R_refl|].
    cbn in *. bprop. apply R_app; [|now apply IH]. apply (rel_delimited t); try assumption. now apply I.
  Qed.
  Lemma rel_fields ts : Forall (fun p => EB (snd p)) ts -> forallb (fun p : finfo * ty => let '(fi, t) := p in f_eq fi && compared maps t) ts = true ->
    forall l1 l2, wt_fields ts l1 = true -> wt_fields ts l2 = true -> eq_fields l1 l2 = true -> R (enc_fields l1) (enc_fields l2).
  Proof using R_refl R_app R_len.
    induction 1 as [|[fi t] ts I _ IH]; intros C [|[fj x] l1] [|[fk y] l2] W1 W2 E; try discriminate W1; try discriminate W2; [apply R_refl|].
    cbn in *. bprop. repeat match goal with X : finfo_eqb _ _ = true |- _ => apply finfo_eqb_eq in X; subst end.
    match goal with X : f_eq _ = true |- _ => rewrite X in * end.
    assert (Q : R (enc x) (enc y)) by (now apply I).
    apply R_app; [|now apply IH]. rewrite (rel_left_out t x y) by assumption. destruct (left_out y (enc y)); [apply R_refl|].
    unfold enc_tagged. rewrite (wt_vwty t x), (wt_vwty t y) by assumption. apply R_app; [apply R_refl|]. now apply (rel_delimited t).
  Qed.
  Lemma rel_pairs {K V} (f : K * V -> bytes) (Q : K * V -> K * V -> Prop) l1 l2 l2' : maps = true -> Permutation l2 l2' -> Forall2 Q l1 l2' ->
    (forall e e', In e l1 -> In e' l2 -> Q e e' -> R (f e) (f e')) -> R (flat_map f l1) (flat_map f l2).
  Proof using R_refl R_app R_perm R_trans.
    intros M P F H. apply (R_trans _ (flat_map f l2')); [|apply R_perm; [exact M|now symmetry]].
    assert (H' : forall e e', In e l1 -> In e' l2' -> Q e e' -> R (f e) (f e')).
    { intros e e' A B. apply H; [exact A|]. now apply (Permutation_in e' (Permutation_sym P)). }
    clear P H. induction F as [|e e' l1 l2' Hq _ IH]; [apply R_refl|]. cbn [flat_map]. apply R_app; [apply H'; cbn; auto|].
    apply IH. intros. apply H'; cbn; auto.
  Qed.

  Lemma equal_rel t : EB t.
  Proof using R_refl R_app R_len R_trans R_perm.
    induction t as [k| | | |t IH|t IH|n t IH|ts IH|k t IHk IHt|t IH|si fs IH|st vs IH|t IH|k t IH] using ty_ind'; intros a b C Wa Wb E;
      destruct a; try discriminate Wa; destruct b; try discriminate Wb.
    - cbn in *. bprop. apply Z.eqb_eq in E. subst.
      assert (X : forall x y, ikind_eqb x y = true -> x = y) by (intros [] []; cbn; congruence).
      repeat match goal with Y : ikind_eqb _ _ = true |- _ => apply X in Y; subst end. apply R_refl.
    - cbn in *. apply eqb_prop in E. subst. apply R_refl.
    - cbn [veqb enc] in *. apply list_eqb_eq in E. subst. apply R_refl.
    - cbn [veqb enc] in *. apply list_eqb_eq in E. subst. apply R_refl.
    - destruct o as [x|], o0 as [y|]; try discriminate E; [|apply R_refl]. cbn [enc]. apply (rel_delimited t); try assumption. now apply IH.
    - now apply (rel_items t).
    - cbn [wt] in *. bprop. now apply (rel_items t).
    - now apply (rel_tuple ts).
    - cbn [compared] in C. bprop. rewrite veqb_hash_eq in E. cbn [wt] in *. bprop.
      match goal with X : forallb _ l = true, Y : forallb _ l0 = true |- _ => pose proof (wt_hash_ok k t l X) as O1; pose proof (wt_hash_ok k t l0 Y) as O2 end.
      assert (D1 : mdistinct veqb l = true) by (now rewrite <- hkeys_mdistinct). assert (D2 : mdistinct veqb l0 = true) by (now rewrite <- hkeys_mdistinct).
      apply (map_eqb_iff veqb veqb (fun v => wt k v = true) (fun v => wt t v = true) (veqb_equiv k)) in E; try assumption. destruct E as [L S].
      destruct (sub_perm veqb veqb _ _ (veqb_equiv k) l l0 L O1 O2 D1 S) as (l2' & P & F). cbn [enc].
      refine (rel_pairs _ _ l l0 l2' _ P F _); [assumption|]. intros [k1 x1] [k2 x2] I1 I2 [Q1 Q2]. cbn [fst snd] in *.
      unfold mok in O1, O2. rewrite Forall_forall in O1, O2. specialize (O1 _ I1). specialize (O2 _ I2). cbn in O1, O2.
      destruct O1, O2. apply R_app; [apply (rel_delimited k)|apply (rel_delimited t)]; auto.
    - cbn [enc]. now apply IH.
    - rewrite wt_struct_eq in *. bprop. now apply (rel_fields fs).
    - rewrite wt_enum_eq in *. rewrite veqb_enum in E. bprop. assert (tag0 = tag) by lia. subst.
      destruct (find_variant vs tag) as [[[tg c'] ts]|] eqn:F; [|discriminate]. bprop. apply find_variant_in in F. destruct F as [F _].
      rewrite Forall_forall in IH. cbn [enc]. apply R_app; [apply R_refl|]. apply (rel_fields ts); try assumption; [exact (IH _ F)|].
      cbn [compared] in C. rewrite forallb_forall in C. exact (C _ F).
    - now apply (rel_items t).
    - cbn [compared] in C. bprop. rewrite veqb_map_eq in E. cbn [wt] in *. bprop.
      match goal with X : forallb _ es = true, Y : forallb _ es0 = true |- _ => pose proof (wt_map_ok t es X) as O1; pose proof (wt_map_ok t es0 Y) as O2 end.
      assert (D1 : mdistinct N.eqb es = true) by (now rewrite <- nodup_mdistinct). assert (D2 : mdistinct N.eqb es0 = true) by (now rewrite <- nodup_mdistinct).
      apply (map_eqb_iff N.eqb veqb (fun _ => True) (fun v => wt t v = true) N_equiv) in E; try assumption. destruct E as [L S].
      destruct (sub_perm N.eqb veqb _ _ N_equiv es es0 L O1 O2 D1 S) as (l2' & P & F). cbn [enc].
      refine (rel_pairs _ _ es es0 l2' _ P F _); [assumption|]. intros [k1 x1] [k2 x2] I1 I2 [Q1 Q2]. cbn [fst snd] in *.
      unfold mok in O1, O2. rewrite Forall_forall in O1, O2. specialize (O1 _ I1). specialize (O2 _ I2). cbn in O1, O2.
      destruct O1, O2. apply N.eqb_eq in Q1. subst k2. unfold enc_tagged. rewrite (wt_vwty t x1), (wt_vwty t x2) by assumption.
      apply R_app; [apply R_refl|]. apply (rel_delimited t); auto.
  Qed.
End Rel.

Lemma equal_same t a b : compared false t = true -> wt t a = true -> wt t b = true -> veqb a b = true -> enc a = enc b.
Proof. apply (equal_rel false eq); try congruence. Qed.
Lemma equal_perm t a b : compared true t = true -> wt t a = true -> wt t b = true -> veqb a b = true -> Permutation (enc a) (enc b).
Proof.
  apply (equal_rel true (@Permutation N)).
  - reflexivity.
  - intros. now apply Permutation_app.
  - intros. now apply Permutation_length.
  - intros ? ? ?. apply Permutation_trans.
  - intros _ A f l l' P. induction P; cbn [flat_map]; [constructor|now apply Permutation_app_head| |etransitivity; eassumption].
    rewrite !app_assoc. apply Permutation_app_tail, Permutation_app_comm.
Qed.
