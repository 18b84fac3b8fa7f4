(** [==] is an equivalence on well-typed values and ignores runtimes. *)
From Verif Require Import Base Varint WireFmt Utf8 Types Ser Spec ValInd VarintProofs WireProofs SerProofs TypeProofs.

Fixpoint eq_fields (fs gs : list (finfo * val)) : bool :=
  match fs, gs with
  | [], [] => true
  | (fi, x) :: fs', (_, y) :: gs' => (if f_eq fi then veqb x y else true) && eq_fields fs' gs'
  | _, _ => false
  end.
Fixpoint eq_items (l1 l2 : list val) : bool :=
  match l1, l2 with
  | [], [] => true
  | x :: r1, y :: r2 => veqb x y && eq_items r1 r2
  | _, _ => false
  end.

Lemma veqb_vec a b : veqb (VVec a) (VVec b) = eq_items a b. Proof. reflexivity. Qed.
Lemma veqb_arr a b : veqb (VArr a) (VArr b) = eq_items a b. Proof. reflexivity. Qed.
Lemma veqb_tup a b : veqb (VTup a) (VTup b) = eq_items a b. Proof. reflexivity. Qed.
Lemma veqb_list r a s b : veqb (VList r a) (VList s b) = eq_items a b. Proof. reflexivity. Qed.
Lemma veqb_struct c r a d s b : veqb (VStruct c r a) (VStruct d s b) = eq_fields a b.
Proof. reflexivity. Qed.
Lemma veqb_enum t c r a u d s b : veqb (VEnum t c r a) (VEnum u d s b) = (t =? u) && eq_fields a b.
Proof. reflexivity. Qed.

Lemma list_eqb_eq (a b : bytes) : list_eqb N.eqb a b = true <-> a = b.
Proof.
  revert b. induction a as [|x a IH]; intros [|y b]; cbn; try (split; congruence).
  rewrite andb_true_iff, N.eqb_eq, IH. split; [intros [-> ->]; reflexivity|]. intros E. inversion E; auto.
Qed.

(** An equivalence on the elements satisfying [P]. *)
Definition equiv_on {A} (P : A -> Prop) (e : A -> A -> bool) : Prop :=
  (forall a, P a -> e a a = true) /\
  (forall a b, P a -> P b -> e a b = true -> e b a = true) /\
  (forall a b c, P a -> P b -> P c -> e a b = true -> e b c = true -> e a c = true).

(** Finite maps as association lists, compared regardless of order. *)
Section Maps.
  Context {K V : Type} (ek : K -> K -> bool) (ev : V -> V -> bool) (PK : K -> Prop) (PV : V -> Prop).
  Hypothesis EK : equiv_on PK ek.
  Hypothesis EV : equiv_on PV ev.

  Definition mfind (k : K) (l : list (K * V)) := find (fun e => ek k (fst e)) l.
  Definition map_eqb (l1 l2 : list (K * V)) : bool :=
    Nat.eqb (length l1) (length l2) &&
    forallb (fun e : K * V => let '(k, x) := e in
      match mfind k l2 with Some e' => ev x (snd e') | None => false end) l1.
  Fixpoint mdistinct (l : list (K * V)) : bool :=
    match l with
    | [] => true
    | (k, _) :: r => negb (existsb (fun e => ek k (fst e)) r) && mdistinct r
    end.
  Definition mok (l : list (K * V)) := Forall (fun e => PK (fst e) /\ PV (snd e)) l.

  Lemma distinct_in l : mok l -> mdistinct l = true -> forall e1 e2, In e1 l -> In e2 l ->
    ek (fst e1) (fst e2) = true -> e1 = e2.
  Proof using EK.
    destruct EK as (Rf & Sy & Tr). unfold mok.
    induction l as [|[k x] l IH]; intros O D e1 e2 I1 I2 E; [destruct I1|].
    inversion O as [|? ? O1 O2]; subst. cbn [mdistinct] in D. apply andb_true_iff in D. destruct D as [D1 D2].
    apply negb_true_iff in D1.
    assert (N1 : forall e, In e l -> ek k (fst e) = false).
    { intros e He. rewrite <- D1. destruct (ek k (fst e)) eqn:X.
      - symmetry. apply existsb_exists. eauto.
      - symmetry. exact D1. }
    assert (OA : forall e, In e l -> PK (fst e)).
    { intros e He. rewrite Forall_forall in O2. now apply O2. }
    destruct I1 as [<-|I1], I2 as [<-|I2]; [reflexivity| | |now apply IH].
    - cbn in E. rewrite N1 in E by exact I2. discriminate.
    - cbn in E. apply Sy in E; [|now apply OA|apply O1]. rewrite N1 in E by exact I1. discriminate.
  Qed.

  Lemma mfind_some k l e : mfind k l = Some e -> In e l /\ ek k (fst e) = true.
  Proof using. unfold mfind. intros H. now apply find_some in H. Qed.

  Lemma mfind_in l : mok l -> mdistinct l = true -> forall k e, PK k -> In e l ->
    ek k (fst e) = true -> mfind k l = Some e.
  Proof using EK.
    intros O D k e Pk I E. unfold mfind. destruct (find _ l) as [e'|] eqn:F.
    - apply find_some in F. destruct F as [F1 F2]. f_equal. apply (distinct_in l O D); [exact F1|exact I|].
      destruct EK as (Rf & Sy & Tr). unfold mok in O. rewrite Forall_forall in O.
      apply (Tr _ k); try assumption; try (now apply O). apply Sy; try assumption. now apply O.
    - apply (find_none _ _ F) in I. congruence.
  Qed.

  Definition sub (l1 l2 : list (K * V)) := forall e, In e l1 -> exists e', In e' l2 /\
    ek (fst e) (fst e') = true /\ ev (snd e) (snd e') = true.

  Lemma map_eqb_iff l1 l2 : mok l1 -> mok l2 -> mdistinct l2 = true ->
    (map_eqb l1 l2 = true <-> length l1 = length l2 /\ sub l1 l2).
  Proof using EK.
    intros O1 O2 D. unfold map_eqb, sub. rewrite andb_true_iff, Nat.eqb_eq, forallb_forall.
    split; intros [L H]; (split; [exact L|]).
    - intros [k x] I. specialize (H _ I). cbn in H. destruct (mfind k l2) as [e'|] eqn:F; [|discriminate].
      apply mfind_some in F. destruct F as [F1 F2]. exists e'. cbn. auto.
    - intros [k x] I. destruct (H _ I) as (e' & I' & E1 & E2). cbn in E1, E2.
      rewrite (mfind_in l2 O2 D k e'); try assumption.
      unfold mok in O1. rewrite Forall_forall in O1. now apply (O1 _ I).
  Qed.

  Lemma sub_sym n : forall l1 l2, length l1 = n -> length l2 = n -> mok l1 -> mok l2 -> mdistinct l1 = true ->
    sub l1 l2 -> sub l2 l1.
  Proof using EK EV.
    destruct EK as (Rf & Sy & Tr), EV as (Rf' & Sy' & Tr').
    induction n as [|n IH]; intros l1 l2 L1 L2 O1 O2 D S.
    - destruct l2; [intros e []|discriminate L2].
    - destruct l1 as [|[k x] l1]; [discriminate L1|].
      destruct (S (k, x)) as (e' & I' & E1 & E2); [now left|]. cbn in E1, E2.
      destruct (in_split _ _ I') as (a & b & ->).
      inversion O1 as [|? ? Ok1 Ok2]; subst. cbn [fst snd] in Ok1.
      assert (Oe : PK (fst e') /\ PV (snd e')) by (unfold mok in O2; rewrite Forall_forall in O2; now apply O2).
      assert (O3 : mok (a ++ b)).
      { unfold mok in *. rewrite Forall_app in *. destruct O2 as [Oa Ob]. inversion Ob; subst. now split. }
      cbn [mdistinct] in D. apply andb_true_iff in D. destruct D as [D1 D2]. apply negb_true_iff in D1.
      assert (S' : sub l1 (a ++ b)).
      { intros e He. destruct (S e) as (e2 & I2 & F1 & F2); [now right|].
        exists e2. split; [|now split]. rewrite in_app_iff in *.
        destruct I2 as [I2|[<-|I2]]; auto. exfalso.
        assert (X : existsb (fun e => ek k (fst e)) l1 = true).
        { apply existsb_exists. exists e. split; [exact He|].
          assert (PK (fst e)) by (unfold mok in Ok2; rewrite Forall_forall in Ok2; now apply Ok2).
          apply (Tr _ (fst e')); try tauto. apply Sy; tauto. }
        congruence. }
      assert (S2 : sub (a ++ b) l1).
      { apply IH; try assumption.
        - cbn in L1. lia.
        - rewrite app_length in *. cbn in L2. lia. }
      intros e He. rewrite in_app_iff in He.
      assert (C : e = e' \/ In e (a ++ b)) by (rewrite in_app_iff; destruct He as [?|[?|?]]; auto).
      destruct C as [-> |C].
      + exists (k, x). cbn. split; [now left|]. split; [apply Sy|apply Sy']; tauto.
      + destruct (S2 _ C) as (f & If & F). exists f. split; [now right|exact F].
  Qed.

  Lemma map_equiv : equiv_on (fun l => mok l /\ mdistinct l = true) map_eqb.
  Proof using EK EV.
    pose proof EK as (Rf & Sy & Tr). pose proof EV as (Rf' & Sy' & Tr'). split; [|split].
    - intros l [O D]. apply map_eqb_iff; try assumption. split; [reflexivity|]. intros e I. exists e.
      unfold mok in O. rewrite Forall_forall in O. specialize (O _ I). split; [exact I|]. split; [apply Rf|apply Rf']; tauto.
    - intros l1 l2 [O1 D1] [O2 D2] H. apply map_eqb_iff in H; try assumption. destruct H as [L S].
      apply map_eqb_iff; try assumption. split; [now symmetry|].
      apply (sub_sym (length l1)); auto.
    - intros l1 l2 l3 [O1 D1] [O2 D2] [O3 D3] H1 H2.
      apply map_eqb_iff in H1; try assumption. apply map_eqb_iff in H2; try assumption.
      apply map_eqb_iff; try assumption. destruct H1 as [L1 S1], H2 as [L2 S2]. split; [congruence|].
      intros e I. destruct (S1 _ I) as (e2 & I2 & A & B). destruct (S2 _ I2) as (e3 & I3 & C & E).
      exists e3. split; [exact I3|]. unfold mok in *. rewrite Forall_forall in O1, O2, O3.
      specialize (O1 _ I). specialize (O2 _ I2). specialize (O3 _ I3).
      split; [apply (Tr _ (fst e2))|apply (Tr' _ (snd e2))]; tauto.
  Qed.
End Maps.

Lemma forallb_ext' {A} (f g : A -> bool) l : (forall x, f x = g x) -> forallb f l = forallb g l.
Proof. intros H. induction l; cbn; [reflexivity|now rewrite H, IHl]. Qed.

Lemma assoc_mfind {A} k (l : list (N * A)) :
  assoc k l = option_map snd (mfind N.eqb k l).
Proof.
  induction l as [|[k' a] l IH]; [reflexivity|]. unfold mfind in *. cbn. destruct (k =? k'); [reflexivity|exact IH].
Qed.

Lemma veqb_hash_eq a b : veqb (VHash a) (VHash b) = map_eqb veqb veqb a b.
Proof. reflexivity. Qed.
Lemma veqb_map_eq r a s b : veqb (VMap r a) (VMap s b) = map_eqb N.eqb veqb a b.
Proof.
  cbn [veqb]. unfold map_eqb. f_equal. apply forallb_ext'. intros [k x]. rewrite assoc_mfind.
  now destruct (mfind N.eqb k b).
Qed.
Lemma hkeys_mdistinct l : hkeys_distinct l = mdistinct veqb l.
Proof. induction l as [|[k x] l IH]; [reflexivity|]. cbn. now rewrite IH. Qed.
Lemma nodup_mdistinct {A} (l : list (N * A)) : nodupb (map fst l) = mdistinct N.eqb l.
Proof.
  unfold nodupb. induction l as [|[k x] l IH]; [reflexivity|]. cbn. rewrite IH. f_equal. f_equal.
  clear IH. induction l as [|[j y] l IH]; [reflexivity|]. cbn. now rewrite IH.
Qed.

Definition EQ (t : ty) := equiv_on (fun v => wt t v = true) veqb.

Lemma items_equiv t : EQ t -> equiv_on (fun l => forallb (wt t) l = true) eq_items.
Proof.
  intros (R & S & T). split; [|split].
  - induction a as [|x l IH]; intros H; [reflexivity|]. cbn in *. bprop. rewrite R, IH by assumption. reflexivity.
  - induction a as [|x l IH]; intros [|y l2] H1 H2 E; try discriminate E; [reflexivity|].
    cbn in *. bprop. rewrite S, IH by assumption. reflexivity.
  - induction a as [|x l IH]; intros [|y l2] [|z l3] H1 H2 H3 E F; try discriminate E; try discriminate F; [reflexivity|].
    cbn in *. bprop. rewrite (T x y z), (IH l2 l3) by assumption. reflexivity.
Qed.

Lemma tup_equiv ts : Forall EQ ts -> equiv_on (fun l => wt_list ts l = true) eq_items.
Proof.
  intros H. split; [|split].
  - induction H as [|t ts (R & S & T) _ IH]; intros [|x l] W; try discriminate W; [reflexivity|].
    cbn in *. bprop. rewrite R, IH by assumption. reflexivity.
  - induction H as [|t ts (R & S & T) _ IH]; intros [|x l] [|y l2] W1 W2 E; try discriminate W1; try discriminate W2; [reflexivity|].
    cbn in *. bprop. rewrite S, IH by assumption. reflexivity.
  - induction H as [|t ts (R & S & T) _ IH]; intros [|x l] [|y l2] [|z l3] W1 W2 W3 E F;
      try discriminate W1; try discriminate W2; try discriminate W3; [reflexivity|].
    cbn in *. bprop. rewrite (T x y z), (IH l l2 l3) by assumption. reflexivity.
Qed.

Lemma fields_equiv ts : Forall (fun p => EQ (snd p)) ts -> equiv_on (fun l => wt_fields ts l = true) eq_fields.
Proof.
  intros H. split; [|split].
  - induction H as [|[fi t] ts (R & S & T) _ IH]; intros [|[fj x] l] W; try discriminate W; [reflexivity|].
    cbn in *. bprop. rewrite R, IH by assumption. now destruct (f_eq fj).
  - induction H as [|[fi t] ts (R & S & T) _ IH]; intros [|[fj x] l] [|[fk y] l2] W1 W2 E; try discriminate W1; try discriminate W2; [reflexivity|].
    cbn in *. bprop. repeat match goal with X : finfo_eqb _ _ = true |- _ => apply finfo_eqb_eq in X; subst end.
    rewrite (IH l l2) by assumption. destruct (f_eq _); [|reflexivity]. now rewrite S by assumption.
  - induction H as [|[fi t] ts (R & S & T) _ IH]; intros [|[fj x] l] [|[fk y] l2] [|[fl z] l3] W1 W2 W3 E F;
      try discriminate W1; try discriminate W2; try discriminate W3; [reflexivity|].
    cbn in *. bprop. repeat match goal with X : finfo_eqb _ _ = true |- _ => apply finfo_eqb_eq in X; subst end.
    rewrite (IH l l2 l3) by assumption. destruct (f_eq _); [|reflexivity]. now rewrite (T x y z) by assumption.
Qed.

Lemma wt_hash_ok k t l : forallb (fun e : val * val => wt k (fst e) && wt t (snd e)) l = true ->
  mok (fun v => wt k v = true) (fun v => wt t v = true) l.
Proof.
  intros H. rewrite forallb_forall in H. apply Forall_forall. intros e I. specialize (H _ I). now apply andb_true_iff in H.
Qed.
Lemma wt_map_ok t l : forallb (fun e : N * val => (fst e <? 2 ^ 32) && wt t (snd e)) l = true ->
  mok (fun _ => True) (fun v => wt t v = true) l.
Proof.
  intros H. rewrite forallb_forall in H. apply Forall_forall. intros e I. specialize (H _ I). apply andb_true_iff in H. tauto.
Qed.
Lemma N_equiv : equiv_on (fun _ : N => True) N.eqb.
Proof. split; [|split]; intros; lia. Qed.

Lemma veqb_equiv t : EQ t.
Proof.
  induction t as [k| | | |t IH|t IH|n t IH|ts IH|k t IHk IHt|t IH|si fs IH|st vs IH|t IH|k t IH]
    using ty_ind'.
  - split; [|split].
    + intros a W. destruct a; try discriminate W. cbn. lia.
    + intros a b W1 W2. destruct a; try discriminate W1; destruct b; try discriminate W2. cbn. lia.
    + intros a b c W1 W2 W3. destruct a; try discriminate W1; destruct b; try discriminate W2; destruct c; try discriminate W3. cbn. lia.
  - split; [|split].
    + intros a W. destruct a; try discriminate W. cbn. now destruct b.
    + intros a b W1 W2. destruct a; try discriminate W1; destruct b; try discriminate W2. cbn. now destruct b0, b.
    + intros a b c W1 W2 W3. destruct a; try discriminate W1; destruct b; try discriminate W2; destruct c; try discriminate W3. cbn. now destruct b0, b, b1.
  - split; [|split].
    + intros a W. destruct a; try discriminate W. cbn. now apply list_eqb_eq.
    + intros a b W1 W2. destruct a; try discriminate W1; destruct b; try discriminate W2. cbn. rewrite !list_eqb_eq. congruence.
    + intros a b c W1 W2 W3. destruct a; try discriminate W1; destruct b; try discriminate W2; destruct c; try discriminate W3. cbn. rewrite !list_eqb_eq. congruence.
  - split; [|split].
    + intros a W. destruct a; try discriminate W. cbn. now apply list_eqb_eq.
    + intros a b W1 W2. destruct a; try discriminate W1; destruct b; try discriminate W2. cbn. rewrite !list_eqb_eq. congruence.
    + intros a b c W1 W2 W3. destruct a; try discriminate W1; destruct b; try discriminate W2; destruct c; try discriminate W3. cbn. rewrite !list_eqb_eq. congruence.
  - destruct IH as (R & S & T). split; [|split].
    + intros a W. destruct a as [| | | |[x|]| | | | | | | | |]; try discriminate W; [exact (R _ W)|reflexivity].
    + intros a b W1 W2. destruct a as [| | | |[x|]| | | | | | | | |]; try discriminate W1; destruct b as [| | | |[y|]| | | | | | | | |]; try discriminate W2; try (intros E; discriminate E); [exact (S _ _ W1 W2)|reflexivity].
    + intros a b c W1 W2 W3. destruct a as [| | | |[x|]| | | | | | | | |]; try discriminate W1; destruct b as [| | | |[y|]| | | | | | | | |]; try discriminate W2; try (intros E; discriminate E);
      destruct c as [| | | |[z|]| | | | | | | | |]; try discriminate W3; try (intros E F; discriminate F); [exact (T _ _ _ W1 W2 W3)|reflexivity].
  - destruct (items_equiv t IH) as (R & S & T). split; [|split].
    + intros a W. destruct a; try discriminate W. exact (R _ W).
    + intros a b W1 W2. destruct a; try discriminate W1; destruct b; try discriminate W2. exact (S _ _ W1 W2).
    + intros a b c W1 W2 W3. destruct a; try discriminate W1; destruct b; try discriminate W2; destruct c; try discriminate W3. exact (T _ _ _ W1 W2 W3).
  - destruct (items_equiv t IH) as (R & S & T). split; [|split].
    + intros a W. destruct a; try discriminate W. cbn in W. bprop. now apply R.
    + intros a b W1 W2. destruct a; try discriminate W1; destruct b; try discriminate W2. cbn [wt] in *. bprop. now apply S.
    + intros a b c W1 W2 W3. destruct a; try discriminate W1; destruct b; try discriminate W2; destruct c; try discriminate W3. cbn [wt] in *. bprop. now apply T.
  - destruct (tup_equiv ts IH) as (R & S & T). split; [|split].
    + intros a W. destruct a; try discriminate W. exact (R _ W).
    + intros a b W1 W2. destruct a; try discriminate W1; destruct b; try discriminate W2. exact (S _ _ W1 W2).
    + intros a b c W1 W2 W3. destruct a; try discriminate W1; destruct b; try discriminate W2; destruct c; try discriminate W3. exact (T _ _ _ W1 W2 W3).
  - destruct (map_equiv veqb veqb _ _ IHk IHt) as (R & S & T).
    assert (X : forall l, wt (THash k t) (VHash l) = true ->
      mok (fun v => wt k v = true) (fun v => wt t v = true) l /\ mdistinct veqb l = true).
    { intros l W. cbn [wt] in W. bprop. rewrite <- hkeys_mdistinct. split; [now apply wt_hash_ok|assumption]. }
    split; [|split].
    + intros a W. destruct a; try discriminate W. rewrite veqb_hash_eq. now apply R, X.
    + intros a b W1 W2. destruct a; try discriminate W1; destruct b; try discriminate W2. rewrite !veqb_hash_eq. apply S; now apply X.
    + intros a b c W1 W2 W3. destruct a; try discriminate W1; destruct b; try discriminate W2; destruct c; try discriminate W3.
      rewrite !veqb_hash_eq. apply T; now apply X.
  - destruct IH as (R & S & T). split; [|split].
    + intros a W. destruct a; try discriminate W. exact (R _ W).
    + intros a b W1 W2. destruct a; try discriminate W1; destruct b; try discriminate W2. exact (S _ _ W1 W2).
    + intros a b c W1 W2 W3. destruct a; try discriminate W1; destruct b; try discriminate W2; destruct c; try discriminate W3. exact (T _ _ _ W1 W2 W3).
  - destruct (fields_equiv fs IH) as (R & S & T). split; [|split].
    + intros a W. destruct a; try discriminate W. rewrite wt_struct_eq in W. bprop. now apply R.
    + intros a b W1 W2. destruct a; try discriminate W1; destruct b; try discriminate W2. rewrite wt_struct_eq in *. bprop. now apply S.
    + intros a b c W1 W2 W3. destruct a; try discriminate W1; destruct b; try discriminate W2; destruct c; try discriminate W3.
      rewrite wt_struct_eq in *. bprop. now apply T.
  - assert (F : forall tag va, find_variant vs tag = Some va -> equiv_on (fun l => wt_fields (snd va) l = true) eq_fields).
    { intros tag va F. apply find_variant_in in F. destruct F as [F _]. rewrite Forall_forall in IH. now apply fields_equiv, IH. }
    split; [|split].
    + intros a W. destruct a; try discriminate W. rewrite wt_enum_eq in W. bprop.
      destruct (find_variant vs tag) as [[[tg c'] ts]|] eqn:E; [|discriminate]. bprop.
      rewrite veqb_enum, N.eqb_refl. destruct (F _ _ E) as (R & S & T). cbn [andb]. apply R. assumption.
    + intros a b W1 W2 V. destruct a; try discriminate W1; destruct b; try discriminate W2. rewrite wt_enum_eq in *.
      rewrite veqb_enum in *. bprop. assert (tag0 = tag) by lia. subst. rewrite N.eqb_refl.
      destruct (find_variant vs tag) as [[[tg c'] ts]|] eqn:E; [|discriminate]. bprop.
      destruct (F _ _ E) as (R & S & T). cbn [andb]. apply S; assumption.
    + intros a b c W1 W2 W3 V1 V2. destruct a; try discriminate W1; destruct b; try discriminate W2; destruct c; try discriminate W3.
      rewrite wt_enum_eq in *. rewrite veqb_enum in *. bprop. assert (tag0 = tag) by lia. assert (tag1 = tag) by lia. subst. rewrite N.eqb_refl.
      destruct (find_variant vs tag) as [[[tg c'] ts]|] eqn:E; [|discriminate]. bprop.
      apply (proj2 (proj2 (F _ _ E))) with fs0; assumption.
  - destruct (items_equiv t IH) as (R & S & T). split; [|split].
    + intros a W. destruct a; try discriminate W. exact (R _ W).
    + intros a b W1 W2. destruct a; try discriminate W1; destruct b; try discriminate W2. exact (S _ _ W1 W2).
    + intros a b c W1 W2 W3. destruct a; try discriminate W1; destruct b; try discriminate W2; destruct c; try discriminate W3. exact (T _ _ _ W1 W2 W3).
  - destruct (map_equiv N.eqb veqb _ _ N_equiv IH) as (R & S & T).
    assert (X : forall r l, wt (TMap k t) (VMap r l) = true ->
      mok (fun _ : N => True) (fun v => wt t v = true) l /\ mdistinct N.eqb l = true).
    { intros r l W. cbn [wt] in W. bprop. rewrite <- nodup_mdistinct. split; [now apply wt_map_ok|assumption]. }
    split; [|split].
    + intros a W. destruct a; try discriminate W. rewrite veqb_map_eq. apply R. eapply X; eassumption.
    + intros a b W1 W2. destruct a; try discriminate W1; destruct b; try discriminate W2. rewrite !veqb_map_eq. apply S; eapply X; eassumption.
    + intros a b c W1 W2 W3. destruct a; try discriminate W1; destruct b; try discriminate W2; destruct c; try discriminate W3.
      rewrite !veqb_map_eq. apply T; eapply X; eassumption.
Qed.

(** ** Runtimes do not matter *)

Lemma eq_items_map (f g : val -> val) l1 :
  Forall (fun x => forall y, veqb (f x) (g y) = veqb x y) l1 ->
  forall l2, eq_items (map f l1) (map g l2) = eq_items l1 l2.
Proof.
  induction 1 as [|x l1 Hx _ IH]; intros [|y l2]; try reflexivity. cbn. now rewrite Hx, IH.
Qed.

Fixpoint norm_items (r : rt) (i : N) (l : list val) : list val :=
  match l with
  | [] => []
  | x :: l' => norm (nested r i) x :: norm_items r (i + 1) l'
  end.
Lemma norm_list r0 r l : norm r (VList r0 l) = VList r (norm_items r 0 l).
Proof.
  cbn [norm]. f_equal. generalize 0. induction l as [|x l IH]; intros i; [reflexivity|]. cbn. now rewrite IH.
Qed.

Definition norm_fields (r : rt) (fs : list (finfo * val)) : list (finfo * val) :=
  map (fun p : finfo * val => let '(fi, x) := p in (fi, norm (field_rt r fi) x)) fs.

Lemma slot_items (P : val -> Prop) l : Forall (fun s : slot => P (snd s)) (map islot l) <-> Forall P l.
Proof. rewrite Forall_map. reflexivity. Qed.

Lemma veqb_norm a : forall b r s, veqb (norm r a) (norm s b) = veqb a b.
Proof.
  induction a as [a L|a IH|a C IH] using val_slots_ind; intros b r s.
  - destruct a; try discriminate L; destruct b; try reflexivity;
      destruct o; reflexivity.
  - destruct b as [| | | |[y|]| | | | | | | | |]; try reflexivity. cbn. apply IH.
  - destruct a as [| | | |[x|]|l|l|l|l| |c ra fs|tag c ra fs|ra l|ra es]; try discriminate C; clear C; cbn [slots] in IH.
    + destruct b as [| | | |[y|]| | | | | | | | |]; try reflexivity. cbn. inversion IH; subst. auto.
    + destruct b as [| | | |[y|]| | | | | | | | |]; reflexivity.
    + destruct b as [| | | | |l2| | | | | | | |]; try reflexivity.
      cbn [norm]. rewrite !veqb_vec. apply eq_items_map. apply (slot_items (fun x => forall b r s, veqb (norm r x) (norm s b) = veqb x b)) in IH.
      eapply Forall_impl; [|exact IH]. cbn. auto.
    + destruct b as [| | | | | |l2| | | | | | |]; try reflexivity.
      cbn [norm]. rewrite !veqb_arr. apply eq_items_map. apply (slot_items (fun x => forall b r s, veqb (norm r x) (norm s b) = veqb x b)) in IH.
      eapply Forall_impl; [|exact IH]. cbn. auto.
    + destruct b as [| | | | | | |l2| | | | | |]; try reflexivity.
      cbn [norm]. rewrite !veqb_tup. apply eq_items_map. apply (slot_items (fun x => forall b r s, veqb (norm r x) (norm s b) = veqb x b)) in IH.
      eapply Forall_impl; [|exact IH]. cbn. auto.
    + destruct b as [| | | | | | | |l2| | | | |]; try reflexivity.
      cbn [norm]. rewrite !veqb_hash_eq. unfold map_eqb. rewrite !map_length. f_equal.
      induction l as [|[k x] l IHl]; [reflexivity|]. cbn [flat_map hslots app] in IH.
      inversion IH as [|? ? K1 IH1]; subst. inversion IH1 as [|? ? X1 IH2]; subst. cbn in K1, X1.
      cbn [map forallb]. rewrite IHl by exact IH2. f_equal.
      clear - K1 X1. unfold mfind. induction l2 as [|[k' x'] l2 IH]; [reflexivity|]. cbn. rewrite K1.
      destruct (veqb k k'); [cbn; apply X1|exact IH].
    + destruct b as [| | | | | | | | | |d rb gs| | |]; try reflexivity.
      cbn [norm]. rewrite !veqb_struct. revert gs. induction fs as [|[fi x] fs IHf]; intros [|[fj y] gs]; try reflexivity.
      cbn [map] in IH. inversion IH as [|? ? X1 IH2]; subst. cbn in X1. cbn. rewrite X1. f_equal. now apply IHf.
    + destruct b as [| | | | | | | | | | |tag2 d rb gs| |]; try reflexivity.
      cbn [norm]. rewrite !veqb_enum. f_equal.
      revert gs. induction fs as [|[fi x] fs IHf]; intros [|[fj y] gs]; try reflexivity.
      cbn [map] in IH. inversion IH as [|? ? X1 IH2]; subst. cbn in X1. cbn. rewrite X1. f_equal. now apply IHf.
    + destruct b as [| | | | | | | | | | | |rb l2|]; try reflexivity.
      rewrite !norm_list, !veqb_list. apply (slot_items (fun x => forall b r s, veqb (norm r x) (norm s b) = veqb x b)) in IH.
      generalize 0. revert l2. induction IH as [|x l Hx _ IHl]; intros [|y l2] i; try reflexivity.
      cbn. now rewrite Hx, IHl.
    + destruct b as [| | | | | | | | | | | | |rb es2]; try reflexivity.
      cbn [norm]. rewrite !veqb_map_eq. unfold map_eqb. rewrite !map_length. f_equal.
      induction es as [|[k x] l IHl]; [reflexivity|]. cbn [map] in IH.
      inversion IH as [|? ? X1 IH2]; subst. cbn in X1.
      cbn [map forallb]. rewrite IHl by exact IH2. f_equal.
      clear - X1. unfold mfind. induction es2 as [|[k' x'] l2 IH]; [reflexivity|]. cbn.
      destruct (k =? k'); [cbn; apply X1|exact IH].
Qed.
