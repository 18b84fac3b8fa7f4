(** C43: several threads serialize parts of one value through shared size caches. *)
From Verif Require Import Base Varint WireFmt Utf8 Types Ser Spec ValInd SerProofs TypeProofs Conc ConcProofs Examples.

(** Alone, a thread does what Ser.v describes. *)
Theorem c43_alone : forall m v h, exec (steit_serializeP m [] v) h = steit_serialize m v h.
Proof. exact exec_steit_serialize. Qed.
Print Assumptions c43_alone.

(** Each thread serializes the node [x] found at address [a] of the value [v] (the whole value, or any
    part of it), and has made the accesses [tr], with [q] left of its program.  If the accesses are
    coherent, a thread that has returned wrote the encoding of its node; one that has not yet returned
    can still do so, and every value it read or wrote is the size of the node whose cache it is. *)
Theorem c43_threads : forall m t v h (ths : list thread),
  ty_ok t = true -> wt t v = true -> writable v = true -> lenN (enc v) < 2 ^ 32 ->
  (forall a x tr q, In (a, x, tr, q) ths -> at_addr [] v a x /\ trace (steit_serializeP m a x) tr q) ->
  coherent h (map tr_of ths) ->
  forall a x tr q, In (a, x, tr, q) ths ->
    (forall r, q = PRet r -> r = Ok (enc x)) /\
    (exists more, trace q more (PRet (Ok (enc x)))) /\
    (forall b n, In (CRead b n) tr \/ In (CWrite b n) tr ->
       exists y, at_addr [] v b y /\ has_cache y = true /\ n = lenN (enc y)).
Proof.
  intros m t v h ths Ht Hw Hwr Hlen Hths Hc a x tr q Hi.
  pose proof (wt_ser_ok t v Ht Hw Hwr) as Ok0.
  destruct (threads_right m v h ths Ok0 Hlen Hths Hc a x tr q Hi) as [Hr Hwt].
  destruct (Hths a x tr q Hi) as [Ha Htr].
  destruct (thread_course m v a x Ok0 Hlen Ha) as [full Hfull].
  destruct (course_prefix _ (right_for_fun v) _ _ _ Htr Hr _ _ Hfull) as [more [-> Hm]].
  split; [|split].
  - intros r ->. now apply course_done in Hm.
  - exists more. now apply (course_trace (right_for v)).
  - intros b n [H|H]; [exact (Hr b n H)|exact (Hwt b n H)].
Qed.
Print Assumptions c43_threads.

(** The accesses of a thread are a prefix of one list that does not depend on the other threads, the
    schedule or the initial caches; it has returned when it has made all of them. *)
Theorem c43_course : forall m t v a x,
  ty_ok t = true -> wt t v = true -> writable v = true -> lenN (enc v) < 2 ^ 32 -> at_addr [] v a x ->
  exists full, forall h (ths : list thread) tr q,
    (forall a x tr q, In (a, x, tr, q) ths -> at_addr [] v a x /\ trace (steit_serializeP m a x) tr q) ->
    coherent h (map tr_of ths) -> In (a, x, tr, q) ths ->
    (exists more, full = tr ++ more) /\ (q = PRet (Ok (enc x)) <-> tr = full).
Proof.
  intros m t v a x Ht Hw Hwr Hlen Ha. pose proof (wt_ser_ok t v Ht Hw Hwr) as Ok0.
  destruct (thread_course m v a x Ok0 Hlen Ha) as [full Hfull]. exists full.
  intros h ths tr q Hths Hc Hi.
  destruct (threads_right m v h ths Ok0 Hlen Hths Hc a x tr q Hi) as [Hr Hwt].
  destruct (Hths a x tr q Hi) as [_ Htr].
  destruct (course_prefix _ (right_for_fun v) _ _ _ Htr Hr _ _ Hfull) as [more [-> Hm]].
  split; [now exists more|]. split.
  - intros ->. apply course_done in Hm. destruct Hm as [-> _]. now rewrite app_nil_r.
  - intros E. rewrite <- (app_nil_r tr) in E at 1. apply app_inv_head in E. subst more.
    destruct q as [r| |]; cbn in Hm; try contradiction. now rewrite Hm.
Qed.
Print Assumptions c43_course.

(** In particular for threads that take turns on one store: every run, whoever goes first, ends after
    the same number [K] of accesses, until then some thread can go on, and at the end everyone has
    written the right bytes and every cache of every part holds the right size. *)
Theorem c43_turns : forall m t v h (parts : list (addr * val)),
  ty_ok t = true -> wt t v = true -> writable v = true -> lenN (enc v) < 2 ^ 32 ->
  (forall a x, In (a, x) parts -> at_addr [] v a x) ->
  exists K, forall k h' qs, steps k h (map (fun p => steit_serializeP m (fst p) (snd p)) parts) h' qs ->
    (k <= K)%nat /\
    (forall i a x r, nth_error parts i = Some (a, x) -> nth_error qs i = Some (PRet r) -> r = Ok (enc x)) /\
    ((k < K)%nat -> exists h'' qs', step h' qs h'' qs') /\
    (k = K -> qs = map (fun p => PRet (Ok (enc (snd p)))) parts /\
       forall a x b y, In (a, x) parts -> at_addr a x b y -> has_cache y = true -> h' b = lenN (enc y)).
Proof.
  intros m t v h parts Ht Hw Hwr Hlen Hp. pose proof (wt_ser_ok t v Ht Hw Hwr) as Ok0.
  assert (Hf : exists fulls, Forall2 (fun p full => course (right_for v) (steit_serializeP m (fst p) (snd p)) full (enc (snd p)))
                               parts fulls).
  { clear - Ok0 Hlen Hp. induction parts as [|[a x] parts IH]; [exists []; constructor|].
    destruct IH as [fulls F]; [intros a' x' Hi; apply Hp; now right|].
    destruct (thread_course m v a x Ok0 Hlen) as [full Hfull]; [apply Hp; now left|].
    exists (full :: fulls). now constructor. }
  destruct Hf as [fulls Hf]. exists (list_sum (map (@length cev) fulls)).
  intros k h' qs St. destruct (steps_coherent _ _ _ _ _ St) as [trs [L1 [L2 [Sk [Hst [Htr Hc]]]]]].
  rewrite map_length in L1, L2.
  (* the threads of the run *)
  set (ths := combine (combine parts trs) qs).
  assert (Hths : exists ths : list thread, map tr_of ths = trs /\
    (forall i a x tr q, nth_error parts i = Some (a, x) -> nth_error trs i = Some tr -> nth_error qs i = Some q ->
       In (a, x, tr, q) ths) /\
    (forall a x tr q, In (a, x, tr, q) ths -> at_addr [] v a x /\ trace (steit_serializeP m a x) tr q)).
  { clear St Sk Hst Hc Hf ths. revert trs qs L1 L2 Htr. induction parts as [|[a x] parts IH]; intros [|tr trs] [|q qs] L1 L2 Htr;
      cbn in L1, L2; try lia.
    - exists []. split; [reflexivity|]. split; [intros [|i] a x tr q E; discriminate E|intros a x tr q []].
    - destruct (IH (fun a x Hi => Hp a x (or_intror Hi)) trs qs) as [ths [E [H1 H2]]]; try lia.
      { intros i. exact (Htr (S i)). }
      exists ((a, x, tr, q) :: ths). split; [cbn; now rewrite E|]. split.
      + intros [|i] a' x' tr' q' E1 E2 E3; cbn in E1, E2, E3.
        * injection E1 as <- <-. injection E2 as <-. injection E3 as <-. now left.
        * right. now apply (H1 i).
      + intros a' x' tr' q' [Eq|Hi]; [|now apply H2]. injection Eq as <- <- <- <-.
        split; [apply Hp; now left|]. exact (Htr O _ _ _ eq_refl eq_refl eq_refl). }
  clear ths. destruct Hths as [ths [Eths [Hin Hths]]]. rewrite <- Eths in Hc.
  pose proof (threads_right m v h ths Ok0 Hlen Hths Hc) as Hright.
  assert (Pre : exists mores, length mores = length parts /\
     list_sum (map (@length cev) fulls) = (k + list_sum (map (@length cev) mores))%nat /\
     forall i a x tr q more, nth_error parts i = Some (a, x) -> nth_error trs i = Some tr -> nth_error qs i = Some q ->
        nth_error mores i = Some more -> course (right_for v) q more (enc x) /\ nth_error fulls i = Some (tr ++ more)).
  { clear - L1 L2 Sk Hin Hths Hright Hf. subst k. revert trs qs L1 L2 Hin.
    induction Hf as [|[a x] full parts fulls Hc F IH]; intros [|tr trs] [|q qs] L1 L2 Hin; cbn in L1, L2; try lia.
    - exists []. split; [reflexivity|]. split; [reflexivity|]. intros [|i] a x tr q more E; discriminate E.
    - assert (Hi : In (a, x, tr, q) ths) by (apply (Hin O); reflexivity).
      destruct (Hths a x tr q Hi) as [_ Htr]. destruct (Hright a x tr q Hi) as [Hr _].
      cbn [fst snd] in Hc.
      destruct (course_prefix _ (right_for_fun v) _ _ _ Htr Hr _ _ Hc) as [more [-> Hm]].
      destruct (IH trs qs) as [mores [Lm [Sm Hall]]]; [lia|lia|intros i; exact (Hin (S i))|].
      exists (more :: mores). split; [cbn; lia|].
      split; [unfold list_sum in *; cbn [map fold_right]; rewrite app_length; lia|].
      intros [|i] a' x' tr' q' more' E1 E2 E3 E4; cbn in E1, E2, E3, E4.
      + injection E1 as <- <-. injection E2 as <-. injection E3 as <-. injection E4 as <-. auto.
      + exact (Hall i a' x' tr' q' more' E1 E2 E3 E4). }
  destruct Pre as [mores [Lm [Sm Hall]]].
  assert (Get : forall i a x, nth_error parts i = Some (a, x) -> exists tr q more,
     nth_error trs i = Some tr /\ nth_error qs i = Some q /\ nth_error mores i = Some more /\
     course (right_for v) q more (enc x) /\ nth_error fulls i = Some (tr ++ more)).
  { intros i a x E. assert (Li : (i < length parts)%nat) by (apply nth_error_Some; congruence).
    destruct (nth_error trs i) as [tr|] eqn:E1; [|apply nth_error_None in E1; lia].
    destruct (nth_error qs i) as [q|] eqn:E2; [|apply nth_error_None in E2; lia].
    destruct (nth_error mores i) as [more|] eqn:E3; [|apply nth_error_None in E3; lia].
    exists tr, q, more. destruct (Hall i a x tr q more E E1 E2 E3). auto. }
  split; [lia|]. split; [|split].
  - intros i a x r E Eq. destruct (Get i a x E) as [tr [q [more [E1 [E2 [E3 [C _]]]]]]].
    rewrite Eq in E2. injection E2 as <-. now apply course_done in C.
  - intros Lt.
    assert (D : exists i more, nth_error mores i = Some more /\ more <> []).
    { assert (G : (0 < list_sum (map (@length cev) mores))%nat) by lia. clear - G.
      induction mores as [|more mores IH]; cbn in G; [lia|]. destruct more as [|e more].
      - destruct IH as [i [mo [E N]]]; [exact G|]. now exists (S i), mo.
      - exists O, (e :: more). split; [reflexivity|discriminate]. }
    destruct D as [i [more [E3 N]]].
    assert (Li : (i < length parts)%nat) by (rewrite <- Lm; apply nth_error_Some; congruence).
    destruct (nth_error parts i) as [[a x]|] eqn:E; [|apply nth_error_None in E; lia].
    destruct (Get i a x E) as [tr [q [more' [E1 [E2 [E3' [C _]]]]]]].
    assert (more' = more) by congruence. subst more'.
    apply nth_error_split in E2. destruct E2 as [l1 [l2 [-> _]]].
    destruct q as [r|b kk|b n q].
    + apply course_done in C. destruct C as [-> _]. congruence.
    + do 2 eexists. apply StRead.
    + do 2 eexists. apply StWrite.
  - intros ->.
    assert (Zero : forall i more, nth_error mores i = Some more -> more = []).
    { assert (G : list_sum (map (@length cev) mores) = O) by lia. clear - G.
      induction mores as [|more mores IH]; intros [|i] mo E; try discriminate E; cbn in E; unfold list_sum in *; cbn [map fold_right] in G.
      - injection E as <-. destruct more; [reflexivity|cbn [length] in G; lia].
      - apply (IH ltac:(lia) i mo E). }
    assert (Done : forall i a x, nth_error parts i = Some (a, x) ->
      nth_error qs i = Some (PRet (Ok (enc x))) /\ nth_error fulls i = nth_error trs i).
    { intros i a x E. destruct (Get i a x E) as [tr [q [more [E1 [E2 [E3 [C Ef]]]]]]].
      rewrite (Zero i more E3) in *. rewrite app_nil_r in Ef. rewrite E1, E2, Ef.
      destruct q as [r| |]; cbn in C; try contradiction. subst r. auto. }
    split.
    + assert (Done1 : forall i a x, nth_error parts i = Some (a, x) -> nth_error qs i = Some (PRet (Ok (enc x))))
        by (intros i a x E; now apply (Done i a x)).
      clear - Done1 L2. revert qs L2 Done1.
      induction parts as [|[a x] parts IH]; intros [|q qs] L2 Done; cbn in L2; try lia; [reflexivity|].
      cbn [map]. f_equal.
      * pose proof (Done O a x eq_refl) as E. cbn in E. now injection E.
      * apply IH; [lia|]. intros i a' x' E. exact (Done (S i) a' x' E).
    + intros a x b y Hi Hy Cy. destruct (In_nth_error _ _ Hi) as [i E].
      destruct (Done i a x E) as [_ Ef].
      destruct (Forall2_nth _ _ _ Hf i (a, x) E) as [full [Ef' Cf]]. cbn [fst snd] in Cf.
      destruct (course_covers m v a x full Ok0 Hlen (Hp a x Hi) Cf b y Hy Cy) as [n Hn].
      rewrite Ef in Ef'. apply nth_error_In in Ef'.
      destruct (Hst b) as [[tr [Htri Hw']]|[_ Never]]; [|exfalso; now apply (Never full n)].
      assert (Rb : right_for v b (h' b)).
      { rewrite <- Eths in Htri. apply in_map_iff in Htri. destruct Htri as [[[[a' x'] tr'] q'] [<- Hi']].
        exact (proj2 (Hright a' x' tr' q' Hi') b _ Hw'). }
      now apply (right_for_at v a x (Hp a x Hi) b y Hy Cy) in Rb.
Qed.
Print Assumptions c43_turns.

(** A scheduler: each number picks the thread that goes next. *)
Fixpoint sched {A} (l : list nat) (h : store) (ps : list (prog A)) : store * list (prog A) :=
  match l with
  | [] => (h, ps)
  | i :: l =>
      match nth_error ps i with
      | Some (PGet a k) => sched l h (firstn i ps ++ k (h a) :: skipn (S i) ps)
      | Some (PSet a n p) => sched l (upd h a n) (firstn i ps ++ p :: skipn (S i) ps)
      | _ => sched l h ps
      end
  end.

Lemma sched_steps {A} l : forall h (ps : list (prog A)), exists k,
  steps k h ps (fst (sched l h ps)) (snd (sched l h ps)).
Proof.
  assert (Cut : forall (ps : list (prog A)) i p, nth_error ps i = Some p -> ps = firstn i ps ++ p :: skipn (S i) ps).
  { induction ps as [|q ps IH]; intros [|i] p E; try discriminate E; cbn in *; [congruence|].
    f_equal. now apply IH. }
  induction l as [|i l IH]; intros h ps; cbn [sched]; [exists O; constructor|].
  destruct (nth_error ps i) as [[r|a k|a n p]|] eqn:E; try apply IH.
  - destruct (IH h (firstn i ps ++ k (h a) :: skipn (S i) ps)) as [j Hj]. exists (S j).
    econstructor; [|exact Hj]. rewrite (Cut ps i _ E) at 1. apply StRead.
  - destruct (IH (upd h a n) (firstn i ps ++ p :: skipn (S i) ps)) as [j Hj]. exists (S j).
    econstructor; [|exact Hj]. rewrite (Cut ps i _ E) at 1. apply StWrite.
Qed.

(** Three threads: two serialize the whole of [vAll], one only its list.  The first overwrites the
    caches again and again while the second is writing. *)
Definition ex_parts : list (addr * val) :=
  [([], vAll ex_rt); ([], vAll ex_rt);
   ([O], VList (nested ex_rt 0) [ vPoint (nested (nested ex_rt 0) 0) 1 (-1) 0; vPoint (nested (nested ex_rt 0) 1) 0 0 0 ])].
Example c43_case :
  (forall a x, In (a, x) ex_parts -> at_addr [] (vAll ex_rt) a x) /\
  (let '(h, qs) := sched (concat (repeat [1; 0; 1; 2]%nat 20)) junk
                     (map (fun p => steit_serializeP Debug (fst p) (snd p)) ex_parts) in
   (h [O], h [1; 0]%nat, map (fun q => match q with PRet (Ok b) => Some (lenN b) | _ => None end) qs)
     = (6, 0, [Some 72; Some 72; Some 6])) /\
  (let '(h, qs) := sched [0; 1; 1; 0; 1; 1; 2]%nat junk
                     (map (fun p => steit_serializeP Debug (fst p) (snd p)) ex_parts) in
   (h [O], h [1; 0]%nat, map (fun q => match q with PRet (Ok b) => Some (lenN b) | _ => None end) qs)
     = (6, 0, [None; None; None])).
Proof.
  split; [|vm_compute; auto].
  intros a x [E|[E|[E|[]]]]; injection E as <- <-; [constructor|constructor|].
  eapply (at_slot [] (vAll ex_rt) 0%nat); [reflexivity|constructor].
Qed.
