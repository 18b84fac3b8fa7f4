(** Parts of a tree changed by several threads; mixed logs. *)
From Verif Require Import Base Varint WireFmt Utf8 Types Ser Spec De Log State StateSpec Coll ValInd VarintProofs WireProofs SerProofs
  TypeProofs EqProofs DeProofs RoundTrip MergeProofs NormProofs LogProofs TreeProofs CohProofs HandleProofs OpProofs ExecProofs
  ReplayProofs FrameProofs Threads.

(** ** [put_at] *)

Lemma apart_sym a b : apart a b -> apart b a.
Proof. intros H s. destruct (H s). auto. Qed.
Lemma apart_tl s a b : apart (s :: a) (s :: b) -> apart a b.
Proof. intros H q. destruct (H q) as [X Y]. cbn in X, Y. split; congruence. Qed.
Lemma apart_nil a : ~ apart [] a.
Proof. intros H. destruct (H a) as [_ X]. now apply X. Qed.
Lemma apart_nil_r a : ~ apart a [].
Proof. intros H. now apply apart_sym, apart_nil in H. Qed.

Lemma state_step_put_other v s x s' : state_step (put_child v s x) s' = state_step v s'.
Proof.
  destruct (step_dec s s') as [<-|Ne]; [apply state_step_put|].
  assert (FF : forall fn fn' fs, fn <> fn' -> find_field fn' (put_field fn x fs) = find_field fn' fs).
  { intros fn fn' fs H. now rewrite find_put_other. }
  destruct s as [fn|i|k|], s' as [fn'|i'|k'|]; try congruence; destruct v; try reflexivity; cbn; rewrite FF; congruence.
Qed.

Lemma walk_cons t v s steps t' x p : walk t v (s :: steps) = Some (t', x, p) ->
  exists t1 y q, child t v s = Some (t1, y) /\ state_step v s = true /\ walk t1 y steps = Some (t', x, q) /\ p = seg v s ++ q.
Proof.
  cbn [walk]. destruct (child t v s) as [[t1 y]|]; [|discriminate]. destruct (state_step v s) eqn:Ss; [|discriminate].
  destruct (walk t1 y steps) as [[[t2 z] q]|] eqn:K; [|discriminate]. intros E. inversion E; subst. eauto 8.
Qed.

Lemma walk_put : forall steps t v t' x p y, walk t v steps = Some (t', x, p) -> walk t (put_at t v steps y) steps = Some (t', y, p).
Proof.
  induction steps as [|s steps IH]; intros t v t' x p y E.
  - cbn in *. now inversion E.
  - apply walk_cons in E. destruct E as (t1 & z & q & C & Ss & K & ->). cbn [walk put_at]. rewrite C, (child_put _ _ _ _ _ _ C), state_step_put, Ss, (IH _ _ _ _ _ y K), seg_put. reflexivity.
Qed.
Lemma walk_put_other : forall a b t v ta xa pa y, walk t v a = Some (ta, xa, pa) -> apart a b -> walk t (put_at t v a y) b = walk t v b.
Proof.
  induction a as [|s a IH]; intros b t v ta xa pa y E A; [now apply apart_nil in A|].
  apply walk_cons in E. destruct E as (t1 & z & q & C & Ss & K & ->). destruct b as [|s' b]; [now apply apart_nil_r in A|].
  cbn [walk put_at]. rewrite C. destruct (step_dec s s') as [<-|Ne].
  - rewrite (child_put _ _ _ _ _ _ C), C, state_step_put, seg_put, (IH b _ _ _ _ _ y K (apart_tl _ _ _ A)). reflexivity.
  - now rewrite (child_put_other _ _ _ _ _ Ne), state_step_put_other, seg_put.
Qed.
Lemma put_at_same : forall steps t v t' x p, walk t v steps = Some (t', x, p) -> put_at t v steps x = v.
Proof.
  induction steps as [|s steps IH]; intros t v t' x p E; [cbn in *; now inversion E|].
  apply walk_cons in E. destruct E as (t1 & z & q & C & _ & K & ->). cbn [put_at]. rewrite C, (IH _ _ _ _ _ K). exact (put_child_same _ _ _ _ _ C).
Qed.
Lemma put_at_put : forall steps t v t' x p y z, walk t v steps = Some (t', x, p) -> put_at t (put_at t v steps y) steps z = put_at t v steps z.
Proof.
  induction steps as [|s steps IH]; intros t v t' x p y z E; [reflexivity|].
  apply walk_cons in E. destruct E as (t1 & w & q & C & _ & K & ->). cbn [put_at]. rewrite C, (child_put _ _ _ _ _ _ C), (IH _ _ _ _ _ y z K). apply put_child_put.
Qed.

Lemma put_child_comm t v s s' x y tx ty x0 y0 : s <> s' -> child t v s = Some (tx, x0) -> child t v s' = Some (ty, y0) ->
  put_child (put_child v s x) s' y = put_child (put_child v s' y) s x.
Proof.
  intros Ne C C'. assert (PF : forall a b (fs : list (finfo * val)), a <> b -> put_field b y (put_field a x fs) = put_field a x (put_field b y fs)).
  { intros a b fs H. induction fs as [|[fi z] fs IH]; [reflexivity|]. cbn. destruct (a =? f_tag fi) eqn:Ea, (b =? f_tag fi) eqn:Eb; cbn; rewrite ?Ea, ?Eb; try reflexivity.
    - apply N.eqb_eq in Ea, Eb. congruence.
    - now rewrite IH. }
  assert (PI : forall a b (es : list (N * val)), a <> b -> assoc a es <> None -> assoc b es <> None -> im_insert b y (im_insert a x es) = im_insert a x (im_insert b y es)).
  { intros a b es H. induction es as [|[k z] es IH]; [intros X; now contradiction X|]. cbn. destruct (a =? k) eqn:Ea, (b =? k) eqn:Eb; cbn; rewrite ?Ea, ?Eb; try reflexivity.
    - apply N.eqb_eq in Ea, Eb. congruence.
    - intros H1 H2. now rewrite IH. }
  assert (SN : forall a b (l : list val), a <> b -> set_nth (set_nth l a x) b y = set_nth (set_nth l b y) a x).
  { intros a b l. revert a b. induction l as [|z l IH]; intros [|a] [|b] H; cbn; try congruence. rewrite IH; [reflexivity|lia]. }
  destruct s as [fn|i|k|], s' as [fn'|i'|k'|]; try congruence; destruct t; try discriminate C; destruct v; try discriminate C; try discriminate C'; cbn [put_child child] in *;
    try (now rewrite PF by congruence).
  - now rewrite SN by (intros X; apply Ne; f_equal; lia).
  - rewrite PI; [reflexivity|congruence| |]; intros X; rewrite X in *; discriminate.
Qed.
Lemma put_at_comm : forall a b t v ta xa pa tb xb pb y z, walk t v a = Some (ta, xa, pa) -> walk t v b = Some (tb, xb, pb) -> apart a b ->
  put_at t (put_at t v a y) b z = put_at t (put_at t v b z) a y.
Proof.
  induction a as [|s a IH]; intros b t v ta xa pa tb xb pb y z Ea Eb A; [now apply apart_nil in A|].
  destruct b as [|s' b]; [now apply apart_nil_r in A|]. apply walk_cons in Ea, Eb.
  destruct Ea as (t1 & w & q & C & _ & K & ->), Eb as (t2 & w2 & q2 & C2 & _ & K2 & ->). cbn [put_at]. rewrite C, C2. destruct (step_dec s s') as [<-|Ne].
  - rewrite C in C2. inversion C2; subst t2 w2. rewrite !(child_put _ _ _ _ _ _ C), !put_child_put. f_equal. eapply IH; eauto using apart_tl.
  - rewrite (child_put_other _ _ _ _ _ Ne), C2. assert (Ne' : s' <> s) by congruence. rewrite (child_put_other _ _ _ _ _ Ne'), C. exact (put_child_comm t v s s' _ _ _ _ _ _ Ne C C2).
Qed.
Lemma put_at_wt : forall steps t v t' x p y, ty_ok t = true -> wt t v = true -> walk t v steps = Some (t', x, p) -> wt t' y = true -> wt t (put_at t v steps y) = true.
Proof.
  induction steps as [|s steps IH]; intros t v t' x p y O W E Wy; [cbn in *; now inversion E; subst|].
  apply walk_cons in E. destruct E as (t1 & z & q & C & _ & K & ->). cbn [put_at]. rewrite C. destruct (child_wt t v s t1 z O W C) as (O1 & W1 & _).
  eapply put_child_wt; eauto.
Qed.
Lemma put_at_coh : forall steps t v t' x p y r, ty_ok t = true -> wt t v = true -> coh r v -> walk t v steps = Some (t', x, p) -> coh (rt_at r p) y -> coh r (put_at t v steps y).
Proof.
  induction steps as [|s steps IH]; intros t v t' x p y r O W Co E Cy; [cbn in *; now inversion E; subst|].
  apply walk_cons in E. destruct E as (t1 & z & q & C & Ss & K & ->). cbn [put_at]. rewrite C. destruct (child_wt t v s t1 z O W C) as (O1 & W1 & _).
  apply (coh_put t v s t1 z); auto. intros _. rewrite rt_at_app in Cy. eapply IH; eauto. now apply (coh_child t v s t1 z r).
Qed.
Lemma same_walk : forall steps t v w t' x p, same v w -> walk t v steps = Some (t', x, p) -> exists y, walk t w steps = Some (t', y, p) /\ same x y.
Proof.
  induction steps as [|s steps IH]; intros t v w t' x p Sm E.
  - cbn in *. inversion E; subst. eauto.
  - apply walk_cons in E. destruct E as (t1 & z & q & C & Ss & K & ->). destruct (same_child _ _ _ _ _ _ Sm C) as (u & Cw & Su).
    destruct (IH _ _ _ _ _ _ Su K) as (y & Wy & Sy). exists y. cbn [walk]. now rewrite Cw, <- (same_state_step _ _ _ Sm), Ss, Wy, (same_seg _ _ _ Sm).
Qed.
Lemma same_put_at : forall steps t v w t' x p y z, same v w -> walk t v steps = Some (t', x, p) -> same y z -> same (put_at t v steps y) (put_at t w steps z).
Proof.
  induction steps as [|s steps IH]; intros t v w t' x p y z Sm E Sy; [exact Sy|].
  apply walk_cons in E. destruct E as (t1 & x1 & q & C & Ss & K & ->). destruct (same_child _ _ _ _ _ _ Sm C) as (u & Cw & Su).
  cbn [put_at]. rewrite C, Cw. eapply same_put; eauto.
Qed.

Lemma handle_at m e : forall steps t v t' x p, ty_ok t = true -> state_ty t = true -> wt t v = true -> walk t v steps = Some (t', x, p) ->
  handle_entry m t (rel p e) v = (let '(x', o) := handle_entry m t' e x in (put_at t v steps x', o)).
Proof.
  induction steps as [|s steps IH]; intros t v t' x p O S W E.
  - cbn in *. inversion E; subst. rewrite rel_nil. now destruct (handle_entry m t' e x).
  - apply walk_cons in E. destruct E as (t1 & z & q & C & Ss & K & ->). destruct (child_wt t v s t1 z O W C) as (O1 & W1 & S1). specialize (S1 S Ss).
    rewrite rel_app, (handle_entry_child m t v s t1 z _ O S W C Ss), (IH t1 z t' x q O1 S1 W1 K). cbn [put_at]. rewrite C. now destruct (handle_entry m t' e x).
Qed.

(** ** Several parts *)

Definition puts (t : ty) (v : val) (l : list (list step * val)) : val := fold_left (fun v p => put_at t v (fst p) (snd p)) l v.
Definition there (t : ty) (v : val) (s : list step) : Prop := exists t' x p, walk t v s = Some (t', x, p).
Definition all_apart (l : list (list step)) : Prop := ForallOrdPairs apart l.

Lemma there_put t v s s' y : there t v s -> apart s s' -> there t v s' -> there t (put_at t v s y) s'.
Proof. intros (t1 & x1 & p1 & K1) A (t2 & x2 & p2 & K2). exists t2, x2, p2. now rewrite (walk_put_other s s' _ _ _ _ _ y K1 A). Qed.
Lemma puts_put t s y : forall l v, all_apart (map fst l) -> Forall (there t v) (map fst l) -> In s (map fst l) -> puts t (put_at t v s y) l = puts t v l.
Proof.
  induction l as [|[s0 z] l IH]; intros v A F I; [contradiction I|]. cbn [map fst] in *. inversion A as [|? ? A1 A2]; subst. inversion F as [|? ? F1 F2]; subst.
  cbn [puts fold_left fst snd] in *. destruct I as [<-|I].
  - destruct F1 as (t1 & x1 & p1 & K1). now rewrite (put_at_put s0 _ _ _ _ _ y z K1).
  - rewrite Forall_forall in A1, F2. pose proof (A1 s I) as Ap. pose proof (F2 s I) as (t2 & x2 & p2 & K2). pose proof F1 as (t1 & x1 & p1 & K1).
    rewrite (put_at_comm s s0 _ _ _ _ _ _ _ _ y z K2 K1 (apart_sym _ _ Ap)). apply IH; auto. apply Forall_forall. intros s' I'. apply there_put; auto.
Qed.
Lemma puts_same t : forall l v, Forall (fun p => exists t' q, walk t v (fst p) = Some (t', snd p, q)) l -> puts t v l = v.
Proof.
  induction l as [|[s y] l IH]; intros v F; [reflexivity|]. inversion F as [|? ? (t' & q & K) F2]; subst. cbn [puts fold_left fst snd] in *.
  rewrite (put_at_same _ _ _ _ _ _ K). now apply IH.
Qed.
Lemma puts_good t r : forall l v, ty_ok t = true -> all_apart (map fst l) -> wt t v = true -> coh r v ->
  Forall (fun p => exists t' x q, walk t v (fst p) = Some (t', x, q) /\ wt t' (snd p) = true /\ coh (rt_at r q) (snd p)) l ->
  wt t (puts t v l) = true /\ coh r (puts t v l).
Proof.
  induction l as [|[s y] l IH]; intros v O A W C F; [auto|]. cbn [map fst] in A. inversion A as [|? ? A1 A2]; subst.
  inversion F as [|? ? (t' & x & q & K & Wy & Cy) F2]; subst. cbn [puts fold_left fst snd] in *. apply IH; auto.
  - now apply (put_at_wt s t v t' x q).
  - now apply (put_at_coh s t v t' x q).
  - rewrite Forall_forall in *. intros p I. destruct (F2 p I) as (t2 & x2 & q2 & K2 & X). exists t2, x2, q2.
    rewrite (walk_put_other s (fst p) _ _ _ _ _ y K); auto. apply A1. now apply in_map.
Qed.
Lemma same_puts t : forall l l' v w, same v w -> map fst l = map fst l' -> all_apart (map fst l) -> Forall (there t v) (map fst l) ->
  Forall2 (fun a b => same (snd a) (snd b)) l l' -> same (puts t v l) (puts t w l').
Proof.
  induction l as [|[s y] l IH]; intros [|[s' z] l'] v w Sm E A F F2; try discriminate E; [exact Sm|]. cbn [map fst] in *. injection E as <- E.
  inversion A as [|? ? A1 A2]; subst. inversion F as [|? ? Fv Fr]; subst. inversion F2; subst. cbn [puts fold_left fst snd] in *. pose proof Fv as (t1 & x1 & p1 & K1). apply IH; auto.
  - eapply same_put_at; eauto.
  - rewrite Forall_forall in *. intros q I. apply there_put; auto.
Qed.

(** ** Mixed entries *)

Lemma of_app {A} i (a b : list (nat * A)) : of i (a ++ b) = of i a ++ of i b.
Proof. unfold of. now rewrite filter_app, map_app. Qed.
Lemma of_cons {A} i j (a : A) s : of i ((j, a) :: s) = if Nat.eqb j i then a :: of i s else of i s.
Proof. unfold of. cbn. now destruct (Nat.eqb j i). Qed.

Lemma mixed_replay m t n (st : nat -> list step) (T : nat -> ty) (P : nat -> list N) (Z : nat -> val) :
  ty_ok t = true -> state_ty t = true -> all_apart (map st (seq 0 n)) ->
  forall les w Y E, wt t w = true -> (forall i, (i < n)%nat -> walk t w (st i) = Some (T i, Y i, P i)) ->
  (forall i e, In (i, e) les -> (i < n)%nat) -> (forall i, (i < n)%nat -> of i les = map (rel (P i)) (E i)) ->
  (forall i, (i < n)%nat -> Forall entry_ok (E i)) -> (forall i, (i < n)%nat -> handle_all m (T i) (E i) (Y i) = (Z i, Ok tt)) ->
  handle_all m t (map snd les) w = (puts t w (map (fun i => (st i, Z i)) (seq 0 n)), Ok tt).
Proof.
  intros O S A.
  assert (Ap : forall i j, (i < n)%nat -> (j < n)%nat -> i <> j -> apart (st i) (st j)).
  { assert (G : forall k a i j, all_apart (map st (seq a k)) -> (a <= i)%nat -> (i < j)%nat -> (j < a + k)%nat -> apart (st i) (st j)).
    { clear. induction k as [|k IH]; intros a i j A Hi Hj Hk; [lia|]. cbn in A. inversion A as [|? ? A1 A2]; subst. destruct (Nat.eq_dec a i) as [->|Ne].
      - rewrite Forall_forall in A1. apply A1. apply in_map, in_seq. lia.
      - apply (IH (Datatypes.S a)); auto; lia. }
    intros i j Hi Hj Ne. destruct (Nat.lt_trichotomy i j) as [L|[L|L]]; [apply (G n 0%nat); auto; lia|congruence|apply apart_sym, (G n 0%nat); auto; lia]. }
  induction les as [|[i e] les IH]; intros w Y E W K Hi Ho Fo H.
  - cbn. f_equal. symmetry. apply puts_same. apply Forall_map, Forall_forall. intros i I. apply in_seq in I. cbn [fst snd].
    assert (L : (i < n)%nat) by lia. specialize (Ho i L). cbn in Ho. symmetry in Ho. apply map_eq_nil in Ho. specialize (H i L). rewrite Ho in H. cbn in H. inversion H; subst. eauto.
  - assert (L : (i < n)%nat) by (apply (Hi i e); now left). pose proof (Ho i L) as Hoi. rewrite of_cons, Nat.eqb_refl in Hoi.
    destruct (E i) as [|e0 es0] eqn:Ei; [discriminate Hoi|]. cbn [map] in Hoi. injection Hoi as -> Hoi.
    pose proof (Fo i L) as Foi. rewrite Ei in Foi. inversion Foi as [|? ? Fe Fes]; subst. destruct (walk_wt t _ w _ _ _ O S W (K i L)) as (O1 & S1 & W1).
    pose proof (H i L) as Hh. rewrite Ei in Hh. cbn [handle_all] in Hh. pose proof (handle_entry_good m (T i) e0 (Y i) O1 S1 W1 Fe) as Gd.
    cbn [map snd handle_all]. rewrite (handle_at m e0 _ t w _ _ _ O S W (K i L)).
    destruct (handle_entry m (T i) e0 (Y i)) as [y1 [u|x| |]]; try discriminate Hh. destruct Gd as [Wy _].
    rewrite (IH (put_at t w (st i) y1) (fun j => if Nat.eqb i j then y1 else Y j) (fun j => if Nat.eqb i j then es0 else E j)).
    + f_equal. apply puts_put.
      * rewrite map_map. exact A.
      * rewrite map_map. apply Forall_map, Forall_forall. intros j I. apply in_seq in I. do 3 eexists. apply K. lia.
      * rewrite map_map. cbn [fst]. apply in_map, in_seq. lia.
    + exact (put_at_wt _ t w _ _ _ y1 O W (K i L) Wy).
    + intros j Lj. destruct (Nat.eqb i j) eqn:Ej.
      * apply Nat.eqb_eq in Ej. subst j. exact (walk_put _ _ _ _ _ _ y1 (K i L)).
      * apply Nat.eqb_neq in Ej. rewrite (walk_put_other _ _ _ _ _ _ _ y1 (K i L)); auto.
    + intros j e' I. apply (Hi j e'). now right.
    + intros j Lj. specialize (Ho j Lj). rewrite of_cons in Ho. destruct (Nat.eqb i j) eqn:Ej; [|exact Ho]. apply Nat.eqb_eq in Ej. subst j. exact Hoi.
    + intros j Lj. destruct (Nat.eqb i j) eqn:Ej; auto.
    + intros j Lj. destruct (Nat.eqb i j) eqn:Ej; auto. apply Nat.eqb_eq in Ej. now subst j.
Qed.

(** ** Mixed logger calls *)

(** The entries that reach the log when the calls of one thread are alone. *)
Fixpoint recorded (lg : N) (d : N) (evs : list lev) : list entry :=
  match evs with
  | [] => []
  | LLog l e :: evs' => if (l =? lg) && (d =? 0) then e :: recorded lg d evs' else recorded lg d evs'
  | c :: evs' => recorded lg (open1 lg d c) evs'
  end.
Definition nests_from (lg : N) (d : N) (evs : list lev) : Prop :=
  forall a b, evs = a ++ LUnpause lg :: b -> 0 < opened lg d a.

Lemma nests_tl lg d c evs : nests_from lg d (c :: evs) -> nests_from lg (open1 lg d c) evs.
Proof. intros H a b ->. exact (H (c :: a) b eq_refl). Qed.

Lemma feeds_alone m lg : forall evs d b, nests_from lg d evs -> (forall a c, evs = a ++ c -> opened lg d a < 2 ^ 32) ->
  feeds m lg (mkRL b d) evs = Ok (mkRL (b ++ bufd (recorded lg d evs)) (opened lg d evs)).
Proof.
  induction evs as [|c evs IH]; intros d b Ns Fw; [cbn; now rewrite app_nil_r|].
  assert (Fw' : forall a c', evs = a ++ c' -> opened lg (open1 lg d c) a < 2 ^ 32) by (intros a c' ->; exact (Fw (c :: a) c' eq_refl)).
  pose proof (nests_tl _ _ _ _ Ns) as Ns'. specialize (fun b => IH (open1 lg d c) b Ns' Fw'). cbn [feeds feed]. unfold opened in *. cbn [fold_left].
  destruct c as [l e|l|l]; cbn [feed recorded open1] in *.
  - destruct (l =? lg); cbn [andb bind]; [|apply IH]. unfold rl_log. cbn [rl_paused rl_inner]. destruct (d =? 0); cbn [bind buf_log]; rewrite IH; [|reflexivity].
    now rewrite <- app_assoc.
  - destruct (l =? lg) eqn:El; cbn [bind]; [|apply IH]. unfold rl_pause. cbn [rl_paused rl_inner].
    specialize (Fw' [] evs eq_refl). cbn in Fw'. unfold add32. apply N.ltb_lt in Fw'. rewrite Fw'. cbn [bind]. apply IH.
  - destruct (l =? lg) eqn:El; cbn [bind]; [|apply IH]. apply N.eqb_eq in El. subst l. specialize (Ns [] evs eq_refl). cbn in Ns. unfold rl_unpause. cbn [rl_paused rl_inner snd].
    apply N.ltb_lt in Ns. rewrite Ns. apply IH.
Qed.

Lemma total_ext n f g : (forall i, (i < n)%nat -> f i = g i) -> total n f = total n g.
Proof. induction n as [|n IH]; intros H; [reflexivity|]. cbn. rewrite H, IH; auto. Qed.
Lemma total_one n i f : (i < n)%nat -> total n f = f i + total n (fun j => if Nat.eqb i j then 0 else f j).
Proof.
  induction n as [|n IH]; intros L; [lia|]. cbn. destruct (Nat.eqb i n) eqn:E.
  - apply Nat.eqb_eq in E. subst. rewrite N.add_0_r, N.add_comm. f_equal. apply total_ext. intros j Lj. destruct (Nat.eqb n j) eqn:E; [apply Nat.eqb_eq in E; lia|reflexivity].
  - apply Nat.eqb_neq in E. rewrite IH by lia. lia.
Qed.
Lemma total_zero n f : (forall i, (i < n)%nat -> f i = 0) -> total n f = 0.
Proof. induction n as [|n IH]; intros H; [reflexivity|]. cbn. rewrite H, IH; auto. Qed.

Lemma mixed_feeds m lg n : forall (s : schedule) (d : nat -> N) b,
  (forall i c, In (i, c) s -> (i < n)%nat) -> (forall i, (i < n)%nat -> nests_from lg (d i) (of i s)) ->
  (forall a i e b, s = a ++ (i, LLog lg e) :: b -> forall j, (j < n)%nat -> j <> i -> opened lg (d j) (of j a) = 0) ->
  (forall a b, s = a ++ b -> total n (fun i => opened lg (d i) (of i a)) < 2 ^ 32) ->
  exists les, feeds m lg (mkRL b (total n d)) (map snd s) = Ok (mkRL (b ++ bufd (map snd les)) (total n (fun i => opened lg (d i) (of i s)))) /\
    (forall i e, In (i, e) les -> (i < n)%nat) /\ forall i, (i < n)%nat -> of i les = recorded lg (d i) (of i s).
Proof.
  induction s as [|[i c] s IH]; intros d b Hi Ns Co Fw.
  - exists []. cbn. rewrite app_nil_r. split; [|split; [contradiction|reflexivity]]. reflexivity.
  - assert (L : (i < n)%nat) by (apply (Hi i c); now left). set (d' := fun j => if Nat.eqb i j then open1 lg (d i) c else d j).
    assert (Od : forall j a, opened lg (d j) (of j ((i, c) :: a)) = opened lg (d' j) (of j a)).
    { intros j a. rewrite of_cons. unfold d'. destruct (Nat.eqb i j) eqn:E; [apply Nat.eqb_eq in E; now subst|reflexivity]. }
    set (new := match c with LLog l e => if (l =? lg) && (d i =? 0) then bufd [e] else [] | _ => [] end : buffer). destruct (IH d' (b ++ new)) as (les & Fe & Hl & Ho).
    { intros j c' I. apply (Hi j c'). now right. }
    { intros j Lj. specialize (Ns j Lj). rewrite of_cons in Ns. unfold d'. destruct (Nat.eqb i j) eqn:E; [|exact Ns]. apply Nat.eqb_eq in E. subst j. now apply nests_tl. }
    { intros a j e b' -> k Lk Nk. rewrite <- Od. now apply (Co ((i, c) :: a) j e b'). }
    { intros a b' ->. specialize (Fw ((i, c) :: a) b' eq_refl). erewrite total_ext; [exact Fw|]. intros j _. cbn beta. now rewrite Od. }
    assert (Td : total n d = d i + total n (fun j => if Nat.eqb i j then 0 else d j)) by now apply total_one.
    assert (Td' : total n d' = open1 lg (d i) c + total n (fun j => if Nat.eqb i j then 0 else d j)).
    { rewrite (total_one n i d' L). unfold d' at 1. rewrite Nat.eqb_refl. f_equal. apply total_ext. intros j _. unfold d'. now destruct (Nat.eqb i j). }
    assert (To : total n (fun j => opened lg (d j) (of j ((i, c) :: s))) = total n (fun j => opened lg (d' j) (of j s))) by (apply total_ext; intros j _; apply Od).
    rewrite To. cbn [map snd feeds].
    assert (Pass : open1 lg (d i) c = d i -> feed m lg (mkRL b (total n d)) c = Ok (mkRL b (total n d)) ->
      new = [] ->
      recorded lg (d i) (of i ((i, c) :: s)) = recorded lg (d' i) (of i s) ->
      exists les, (do L' <- feed m lg (mkRL b (total n d)) c; feeds m lg L' (map snd s)) = Ok (mkRL (b ++ bufd (map snd les)) (total n (fun i => opened lg (d' i) (of i s)))) /\
      (forall i e, In (i, e) les -> (i < n)%nat) /\ forall j, (j < n)%nat -> of j les = recorded lg (d j) (of j ((i, c) :: s))).
    { intros X1 X2 X3 X4. exists les. rewrite X2. cbn [bind]. rewrite X3, app_nil_r in Fe. rewrite Td, <- X1, <- Td'. split; [exact Fe|]. split; [exact Hl|].
      intros j Lj. rewrite (Ho j Lj). destruct (Nat.eq_dec i j) as [->|Ne]; [now rewrite X4|]. rewrite of_cons. unfold d'. apply Nat.eqb_neq in Ne. now rewrite Ne. }
    destruct c as [l e|l|l]; cbn [feed open1] in *; subst new; cbn beta in *.
    + destruct (l =? lg) eqn:El; cbn [andb] in *.
      * apply N.eqb_eq in El. subst l. assert (Z : total n (fun j => if Nat.eqb i j then 0 else d j) = 0).
        { apply total_zero. intros j Lj. destruct (Nat.eqb i j) eqn:E; [reflexivity|]. apply Nat.eqb_neq in E. exact (Co [] i e s eq_refl j Lj (fun X => E (eq_sym X))). }
        rewrite Z, N.add_0_r in Td, Td'. unfold rl_log. cbn [rl_paused rl_inner]. rewrite Td. destruct (d i =? 0) eqn:D0; cbn [bind buf_log].
        -- exists ((i, e) :: les). rewrite Td' in Fe. change (buf_log b e) with (b ++ [(e, fresh_store)], @Ok unit tt). cbn [bind]. change [(e, fresh_store)] with (bufd [e]). rewrite Fe. cbn [map snd].
           split; [rewrite <- app_assoc, <- bufd_app; reflexivity|]. split.
           ++ intros j e' [X|X]; [inversion X; now subst|eauto].
           ++ intros j Lj. rewrite !of_cons. rewrite (Ho j Lj). unfold d'. destruct (Nat.eqb i j) eqn:E; [|reflexivity]. apply Nat.eqb_eq in E. subst j. cbn [recorded]. now rewrite N.eqb_refl, D0.
        -- rewrite app_nil_r in Fe. rewrite Td' in Fe. exists les. split; [exact Fe|]. split; [exact Hl|]. intros j Lj. rewrite (Ho j Lj), of_cons. unfold d'.
           destruct (Nat.eqb i j) eqn:E; [|reflexivity]. apply Nat.eqb_eq in E. subst j. cbn [recorded]. now rewrite N.eqb_refl, D0.
      * apply Pass; try reflexivity. rewrite of_cons, Nat.eqb_refl. cbn [recorded]. rewrite El. unfold d'. now rewrite Nat.eqb_refl.
    + destruct (l =? lg) eqn:El.
      * apply N.eqb_eq in El. subst l. unfold rl_pause. cbn [rl_paused rl_inner]. specialize (Fw [(i, LPause lg)] s eq_refl).
        erewrite total_ext in Fw by (intros j _; rewrite Od; reflexivity). cbn [of] in Fw. unfold opened, of in Fw. cbn in Fw. change (fun i0 => d' i0) with d' in Fw. rewrite Td' in Fw.
        unfold add32. replace (total n d + 1) with (total n d') by (rewrite Td, Td'; lia). rewrite Td'. apply N.ltb_lt in Fw. rewrite Fw. cbn [bind]. rewrite <- Td'. rewrite app_nil_r in Fe.
        exists les. split; [exact Fe|]. split; [exact Hl|]. intros j Lj. rewrite (Ho j Lj), of_cons. unfold d'. destruct (Nat.eqb i j) eqn:E; [|reflexivity].
        apply Nat.eqb_eq in E. subst j. cbn [recorded open1]. now rewrite N.eqb_refl.
      * apply Pass; try reflexivity. rewrite of_cons, Nat.eqb_refl. cbn [recorded open1]. rewrite El. unfold d'. now rewrite Nat.eqb_refl.
    + destruct (l =? lg) eqn:El.
      * apply N.eqb_eq in El. subst l. unfold rl_unpause. cbn [rl_paused rl_inner snd bind]. specialize (Ns i L). rewrite of_cons, Nat.eqb_refl in Ns. specialize (Ns [] _ eq_refl). cbn in Ns.
        assert (X : (0 <? total n d) = true) by (apply N.ltb_lt; lia). rewrite X. replace (total n d - 1) with (total n d') by lia. rewrite app_nil_r in Fe.
        exists les. split; [exact Fe|]. split; [exact Hl|]. intros j Lj. rewrite (Ho j Lj), of_cons. unfold d'. destruct (Nat.eqb i j) eqn:E; [|reflexivity].
        apply Nat.eqb_eq in E. subst j. cbn [recorded open1]. now rewrite N.eqb_refl.
      * apply Pass; try reflexivity. rewrite of_cons, Nat.eqb_refl. cbn [recorded open1]. rewrite El. unfold d'. now rewrite Nat.eqb_refl.
Qed.

(** ** The logger calls of operations *)

Section Calls.
  Variable Q : list lev -> Prop.
  Hypothesis Qnil : Q [].
  Hypothesis Qapp : forall a b, Q a -> Q b -> Q (a ++ b).
  Hypothesis Qlog : forall l e, Q [LLog l e].

  Definition evq {A} (x : M A) : Prop := match snd x with Ok _ => Q (fst x) | _ => True end.
  Definition cbq (o : op) : Prop :=
    match o with
    | OSetWith _ cb | OVSetWith _ _ cb | OPushWith cb | OInsertWith _ cb => forall r, evq (cb r)
    | _ => True
    end.
  Lemma evq_lift {A} (r : res A) : evq (mlift r). Proof. unfold evq. cbn. now destruct r. Qed.
  Lemma evq_bind {A B} (x : M A) (k : A -> M B) : evq x -> (forall a, evq (k a)) -> evq (mbind x k).
  Proof.
    unfold evq. intros X K. destruct x as [ev [a|e| |]]; cbn [mbind snd fst] in *; try exact Logic.I. specialize (K a). destruct (k a) as [ev' [b|e| |]]; cbn in *; auto.
  Qed.
  Lemma evq_try {A B} v (x : M A) (k : A -> val * M B) : evq x -> (forall a, evq (snd (k a))) -> evq (snd (mtry v x k)).
  Proof.
    unfold evq. intros X K. destruct x as [ev [a|e| |]]; cbn [mtry snd fst] in *; try exact Logic.I. specialize (K a). destruct (k a) as [v' [ev' [b|e| |]]]; cbn in *; auto.
  Qed.
  Lemma evq_log r e : evq (rt_log_entry r e).
  Proof. apply evq_bind; [apply evq_lift|]. intros a. apply Qlog. Qed.
  Lemma evq_call r fn cb : (forall lg a, Q a -> Q (LPause lg :: a ++ [LUnpause lg])) -> (forall r, evq (cb r)) -> evq (call_paused r fn cb).
  Proof.
    intros W C. specialize (C (nested r fn)). unfold call_paused, evq in *. destruct (cb (nested r fn)) as [ev [a|e| |]]; cbn in *; auto.
  Qed.
  Lemma evq_set_field m h r fs rb fn get : evq get -> evq (snd (set_field m h r fs rb fn get)).
  Proof.
    intros G. unfold set_field. destruct (find_field fn fs) as [[fi x0]|]; [|apply evq_lift]. apply evq_try; [exact G|]. intros x.
    destruct (f_state fi); [|apply Qnil]. apply evq_try; [now apply evq_log|]. intros _. apply Qnil.
  Qed.
  Lemma evq_then {B} (x : val * M unit) (k : val -> val * M B) : evq (snd x) -> (forall v, evq (snd (k v))) -> evq (snd (mthen x k)).
  Proof. intros X K. unfold mthen. destruct x as [v o]. apply evq_try; [exact X|]. intros _. apply K. Qed.
  Lemma evq_reset m h t tag v : evq (snd (reset_variant m h t tag v)).
  Proof.
    unfold reset_variant. destruct t as [| | | | | | | | | | |st vs| |]; try exact Logic.I. destruct v as [| | | | | | | | | | |tag0 c [r|] fs| |]; try exact Logic.I.
    destruct (tag0 =? tag); [apply Qnil|]. destruct (find_variant vs tag) as [va|]; [|exact Logic.I].
    apply evq_try; [apply evq_lift|]. intros p. apply evq_try; [apply evq_log|]. intros _. apply Qnil.
  Qed.
  Lemma evq_set_value r fs fn x : evq (set_value r fs fn x).
  Proof. unfold set_value. destruct (find_field fn fs) as [[fi x0]|]; apply evq_lift. Qed.
  Lemma evq_set_value_with r fs fn cb : (forall lg a, Q a -> Q (LPause lg :: a ++ [LUnpause lg])) -> (forall r, evq (cb r)) -> evq (set_value_with r fs fn cb).
  Proof.
    intros R C. unfold set_value_with. destruct (find_field fn fs) as [[fi x0]|]; [|apply evq_lift]. destruct (f_state fi); [now apply evq_call|apply evq_lift].
  Qed.
  Lemma evq_pop r l : evq (snd (list_pop r l)).
  Proof. unfold list_pop. destruct (rev l); [apply Qnil|]. apply evq_try; [apply evq_log|]. intros _. apply Qnil. Qed.
  Lemma evq_push m h r l cb : (forall lg a, Q a -> Q (LPause lg :: a ++ [LUnpause lg])) -> (forall r, evq (cb r)) -> evq (snd (list_push_with m h r l cb)).
  Proof. intros R C. apply evq_try; [now apply evq_call|]. intros x. apply evq_try; [apply evq_log|]. intros _. apply Qnil. Qed.
  Lemma evq_insert m h r es k x : evq (snd (map_insert m h r es k x)).
  Proof. apply evq_try; [apply evq_log|]. intros _. apply Qnil. Qed.

  Lemma op_evq m h t o v : (pauses o = true -> forall lg a, Q a -> Q (LPause lg :: a ++ [LUnpause lg])) -> cbq o -> evq (snd (apply_op m h t o v)).
  Proof.
    intros P C. destruct o as [fn x|fn cb|tag fn x|tag fn cb|x|cb| |i|k x|k cb|k]; cbn [pauses cbq] in P, C; try specialize (P eq_refl);
      destruct v as [| | | | | | | | | |c [r|] fs|tag0 c [r|] fs|r l|r es]; cbn [apply_op]; try exact Logic.I.
    - apply evq_set_field, evq_set_value.
    - now apply evq_set_field, evq_set_value_with.
    - apply evq_then; [apply evq_reset|]. intros [| | | | | | | | | | |tag1 c1 [r1|] fs1| |]; try exact Logic.I. apply evq_set_field, evq_set_value.
    - apply evq_then; [apply evq_reset|]. intros [| | | | | | | | | | |tag1 c1 [r1|] fs1| |]; try exact Logic.I. now apply evq_set_field, evq_set_value_with.
    - apply evq_push; [exact P|]. intros r'. apply Qnil.
    - now apply evq_push.
    - apply evq_pop.
    - unfold list_swap_remove. destruct (lenN l <=? i); [apply Qnil|]. destruct (i =? lenN l - 1); [apply evq_pop|].
      destruct (nth_error l (N.to_nat i)) as [x|]; [|exact Logic.I]. destruct (rev l) as [|z l0]; [exact Logic.I|]. apply evq_try.
      + apply evq_bind; [apply evq_lift|]. intros e2. apply (Qapp [_] [_]); apply Qlog.
      + intros _. destruct (vwty z); [apply Qnil|]. apply evq_try; [apply evq_lift|]. intros rt'. apply Qnil.
    - apply evq_insert.
    - apply evq_try; [now apply evq_call|]. intros x. apply evq_insert.
    - apply evq_try; [apply evq_log|]. intros _. apply Qnil.
  Qed.
  Lemma at_evq m h o : (pauses o = true -> forall lg a, Q a -> Q (LPause lg :: a ++ [LUnpause lg])) -> cbq o ->
    forall steps t v v' x, at_node steps (fun t x => apply_op m h t o x) t v = Some (v', x) -> evq x.
  Proof.
    intros P C. induction steps as [|s steps IH]; intros t v v' x E; cbn [at_node] in E.
    - inversion E as [E']. rewrite <- (op_evq m h t o v P C) || idtac. pose proof (op_evq m h t o v P C) as X. rewrite E' in X. exact X.
    - destruct (child t v s) as [[t1 y]|]; [|discriminate E]. destruct (at_node steps _ t1 y) as [[y' x']|] eqn:A; [|discriminate E]. inversion E; subst. exact (IH _ _ _ _ A).
  Qed.
  Lemma exec_evq m t : forall cs v, Forall (fun c => (pauses (c_op c) = true -> forall lg a, Q a -> Q (LPause lg :: a ++ [LUnpause lg])) /\ cbq (c_op c)) cs ->
    evq (snd (exec m t v cs)).
  Proof.
    induction cs as [|c cs IH]; intros v F; [apply Qnil|]. inversion F as [|? ? [F1 F1'] F2]; subst. cbn [exec].
    destruct (at_node (c_at c) _ t v) as [[v1 o]|] eqn:A; [|exact Logic.I]. apply evq_try; [exact (at_evq m _ _ F1 F1' _ _ _ _ _ A)|]. intros x.
    specialize (IH v1 F2). destruct (exec m t v1 cs) as [v2 o2]. cbn [snd] in *. apply evq_bind; [exact IH|]. intros xs. apply Qnil.
  Qed.
End Calls.

Lemma opened_app lg d a b : opened lg d (a ++ b) = opened lg (opened lg d a) b.
Proof. apply fold_left_app. Qed.

(** [balanced], from any number of open pauses. *)
Definition bal (lg : N) (evs : list lev) : Prop := forall d, nests_from lg d evs /\ opened lg d evs = d.
Lemma bal_more lg evs : balanced evs -> bal lg evs.
Proof.
  intros B. destruct (B lg) as [N O]. assert (G : forall a d, nests_from lg 0 a -> opened lg d a = d + opened lg 0 a).
  { clear. induction a as [|c a IH] using rev_ind; intros d N; [cbn; lia|]. rewrite !opened_app. assert (N' : nests_from lg 0 a).
    { intros x y ->. apply (N x (y ++ [c])). now rewrite <- app_assoc. }
    rewrite (IH d N'). cbn. destruct c as [l e|l|l]; cbn; [lia|destruct (l =? lg); lia|]. destruct (l =? lg) eqn:E; [|lia]. apply N.eqb_eq in E. subst l.
    specialize (N a [] eq_refl). lia. }
  intros d. split.
  - intros a b ->. assert (N' : nests_from lg 0 a). { intros x y ->. apply (N x (y ++ LUnpause lg :: b)). now rewrite <- app_assoc. }
    rewrite (G a d N'). specialize (N a b eq_refl). lia.
  - rewrite (G evs d N), O. lia.
Qed.
Lemma bal_nil lg : bal lg []. Proof. intros d. split; [|reflexivity]. intros a b E. now destruct a. Qed.
Lemma bal_log lg l e : bal lg [LLog l e].
Proof. intros d. split; [|reflexivity]. intros a b E. destruct a as [|x [|y a]]; discriminate E. Qed.
Lemma bal_other lg c : (forall d, open1 lg d c = d) -> c <> LUnpause lg -> bal lg [c].
Proof. intros H Ne d. split; [|apply H]. intros a b E. destruct a as [|x [|y a]]; try discriminate E. injection E as E _. congruence. Qed.
Lemma bal_app lg a b : bal lg a -> bal lg b -> bal lg (a ++ b).
Proof.
  intros A B d. destruct (A d) as [Na Oa], (B d) as [Nb Ob]. split; [|now rewrite opened_app, Oa].
  intros x y E. apply app_eq_app in E. destruct E as (l & [[E1 E2]|[E1 E2]]).
  - destruct l as [|c l]; cbn in E2.
    + subst. rewrite app_nil_r in *. rewrite Oa. now apply (Nb [] y).
    + injection E2 as <- E2. subst. now apply (Na x l).
  - subst x. rewrite opened_app, Oa. now apply (Nb l y).
Qed.
Lemma bal_wrap lg l a : bal lg a -> bal lg (LPause l :: a ++ [LUnpause l]).
Proof.
  intros A. destruct (l =? lg) eqn:E.
  - intros d. apply N.eqb_eq in E. subst l. destruct (A (d + 1)) as [Na Oa]. assert (X : opened lg d (LPause lg :: a) = d + 1) by (unfold opened in *; cbn [fold_left open1]; rewrite N.eqb_refl; exact Oa). split.
    + intros x y Ex. destruct x as [|c x]; [discriminate Ex|]. injection Ex as <- Ex. apply app_eq_app in Ex. destruct Ex as (l & [[E1 E2]|[E1 E2]]).
      * destruct l as [|c l]; cbn in E2; [subst; rewrite app_nil_r in X; rewrite X; lia|]. injection E2 as <- E2. unfold opened. cbn [fold_left open1]. rewrite N.eqb_refl. now apply (Na x l).
      * destruct l as [|c l]; cbn in E2; [rewrite app_nil_r in E1; subst x; rewrite X; lia|]. injection E2 as _ E2. now destruct l.
    + change (LPause lg :: a ++ [LUnpause lg]) with ((LPause lg :: a) ++ [LUnpause lg]). rewrite opened_app, X. cbn. rewrite N.eqb_refl. lia.
  - apply (bal_app lg [LPause l] (a ++ [LUnpause l])); [|apply bal_app; [exact A|]]; apply bal_other; try (intros d; cbn; now rewrite E); try discriminate.
    intros X. injection X as ->. rewrite N.eqb_refl in E. discriminate E.
Qed.

Lemma exec_balanced lg m t cs v v' evs rets : Forall (fun c => op_balanced (c_op c)) cs -> exec m t v cs = (v', (evs, Ok rets)) -> bal lg evs.
Proof.
  intros F E. assert (X : evq (bal lg) (snd (exec m t v cs))).
  { apply exec_evq; [apply bal_nil|apply bal_app|apply bal_log|]. eapply Forall_impl; [|exact F]. intros c K. cbn beta in K. split; [intros _ l a; apply bal_wrap|].
    revert K. destruct (c_op c); cbn; auto; intros K r; unfold evq; (destruct (f r) as [ev [x|e| |]] eqn:Ef; cbn; auto; apply bal_more; eapply K; exact Ef). }
  rewrite E in X. exact X.
Qed.
Definition is_log (c : lev) : Prop := match c with LLog _ _ => True | _ => False end.
Lemma exec_plain m t cs v v' evs rets : Forall (fun c => pauses (c_op c) = false) cs -> exec m t v cs = (v', (evs, Ok rets)) -> Forall is_log evs.
Proof.
  intros F E. assert (X : evq (Forall is_log) (snd (exec m t v cs))).
  { apply exec_evq; [constructor|intros; now apply Forall_app|intros; repeat constructor|]. eapply Forall_impl; [|exact F]. intros c K. cbn beta in K. split; [congruence|].
    revert K. destruct (c_op c); cbn; auto; discriminate. }
  rewrite E in X. exact X.
Qed.
Lemma opened_logs lg d evs : Forall is_log evs -> opened lg d evs = d.
Proof. induction 1 as [|c evs H _ IH]; [reflexivity|]. destruct c; try contradiction H. exact IH. Qed.
