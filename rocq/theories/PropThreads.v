(** C78: several threads change parts of one tree and share its logger. *)
From Verif Require Import Base Varint WireFmt Utf8 Types Ser Spec De Log State StateSpec Coll ValInd VarintProofs WireProofs SerProofs
  TypeProofs EqProofs DeProofs RoundTrip MergeProofs NormProofs LogProofs TreeProofs CohProofs HandleProofs OpProofs ExecProofs
  ReplayProofs FrameProofs KeepProofs Examples PropLog PropReplay PropState Threads ThreadProofs.

Lemma finite_choice {B} (b0 : B) n (R : nat -> B -> Prop) : (forall i, (i < n)%nat -> exists y, R i y) -> exists f, forall i, (i < n)%nat -> R i (f i).
Proof.
  induction n as [|n IH]; intros H; [exists (fun _ => b0); lia|]. destruct IH as [f Hf]; [intros i L; apply H; lia|]. destruct (H n ltac:(lia)) as [y Hy].
  exists (fun i => if Nat.eqb i n then y else f i). intros i L. destruct (Nat.eqb i n) eqn:E; [apply Nat.eqb_eq in E; now subst|]. apply Nat.eqb_neq in E. apply Hf. lia.
Qed.
Lemma map_seq_nth {A B} (f : A -> B) (d : A) (l : list A) : map (fun i => f (nth i l d)) (seq 0 (length l)) = map f l.
Proof.
  induction l as [|a l IH]; [reflexivity|]. cbn [length seq map nth]. f_equal. rewrite <- seq_shift, map_map. exact IH.
Qed.
Lemma leave_puts m t v0 : forall ths v, Forall (fun th => there t v0 (t_at th)) ths ->
  leave m t v0 ths v = puts t v (map (fun th => (t_at th, match walk t v0 (t_at th) with Some (t', x, _) => fst (exec m t' x (t_calls th)) | None => v end)) ths).
Proof.
  assert (G : forall ths v d, Forall (fun th => there t v0 (t_at th)) ths ->
    leave m t v0 ths v = puts t v (map (fun th => (t_at th, match walk t v0 (t_at th) with Some (t', x, _) => fst (exec m t' x (t_calls th)) | None => d end)) ths)).
  { induction ths as [|th ths IH]; intros v d F; [reflexivity|]. inversion F as [|? ? (t' & x & p & K) F2]; subst. cbn [leave map puts fold_left fst snd]. rewrite K. now apply IH. }
  intros ths v F. now apply G.
Qed.
Lemma bufd_inj a b : bufd a = bufd b -> a = b.
Proof. intros H. apply (f_equal (map fst)) in H. now rewrite !map_fst_bufd in H. Qed.

(** The original [v] and the replica [u] are as in C23; the threads work on parts of [v], none inside
    another, with calls as in C23; [s] is any order in which their calls get at the logger.  If no thread
    logs while another has the logger paused, then the threads leave a tree in order, the logger is
    not paused, and what it has collected leads the replica to the state of the tree. *)
Theorem c78_converge : forall m m' m'' t lg lg' v u ths s,
  ty_ok t = true -> state_ty t = true -> root_ty t = true ->
  wt t v = true -> placed (mkRt lg Root) t v -> wt t u = true -> placed (mkRt lg' Root) t u -> same v u ->
  ForallOrdPairs apart (map t_at ths) ->
  Forall (fun th => exists t' x p, walk t v (t_at th) = Some (t', x, p) /\ legal m t' x (t_calls th)) ths ->
  Forall (fun th => Forall (fun c => op_balanced (c_op c)) (t_calls th)) ths ->
  mixes m t v ths s -> considerate lg s -> few lg (length ths) s ->
  let v' := leave m t v ths v in
  wt t v' = true /\ placed (mkRt lg Root) t v' /\
  Forall (fun th => exists t' x p z evs rets, walk t v (t_at th) = Some (t', x, p) /\ exec m t' x (t_calls th) = (z, (evs, Ok rets))) ths /\
  exists b, feeds m lg (rl_new []) (map snd s) = Ok (mkRL b 0) /\
    (Forall fits (map fst b) ->
     exists bs b' u', buf_bytes m' b = Ok (bs, b') /\ replay m'' t u bs = (u', Ok tt) /\
       same v' u' /\ veqb v' u' = true /\ wt t u' = true /\ placed (mkRt lg' Root) t u').
Proof.
  intros m m' m'' t lg lg' v u ths s O S R W Pl Wu Plu Sm Ap Lg Bl [Mi Mo] Co Fw v'. apply placed_coh in Pl; try assumption. apply placed_coh in Plu; try assumption.
  set (n := length ths). set (d0 := mkThread [] []). set (th := fun i => nth i ths d0).
  destruct (finite_choice (TBool, v, [], v, [], []) n (fun i '(T, x, P, z, evs, es) =>
    walk t v (t_at (th i)) = Some (T, x, P) /\ (exists rets, exec m T x (t_calls (th i)) = (z, (evs, Ok rets))) /\ wt T z = true /\ coh (rt_at (mkRt lg Root) P) z /\
    of i s = evs /\ recorded lg 0 evs = map (rel P) es /\ opened lg 0 evs = 0 /\ nests_from lg 0 evs /\ (forall m' w, Forall entry_ok es -> wt T w = true -> same x w ->
       exists w', handle_all m' T es w = (w', Ok tt) /\ wt T w' = true /\ same z w'))) as [D HD].
  { intros i Li. assert (In (th i) ths) by (apply nth_In; exact Li). rewrite Forall_forall in Lg, Bl. destruct (Lg _ H) as (T & x & P & K & Le). specialize (Bl _ H).
    destruct (walk_wt t _ v T x P O S W K) as (O1 & S1 & W1). pose proof (walk_coh _ t v T x P _ O W Pl K) as C1.
    destruct (exec_effect m T _ O1 S1 (t_calls (th i)) x W1 C1 Le) as (z & evs & rets & es & E & Wz & Cz & _ & L & _ & Rp).
    rewrite rt_at_log, collect_at in L. cbn [rt_log rt_path collect_values] in L. change (collect_values Root ++ P) with P in L.
    pose proof (exec_balanced lg m T _ _ _ _ _ Bl E) as Bal. assert (Ev : of i s = evs).
    { rewrite (Mo i (th i)); [unfold calls_of; now rewrite K, E|]. apply nth_error_nth'. exact Li. }
    exists (T, x, P, z, evs, es). split; [exact K|]. split; [now exists rets|]. split; [exact Wz|]. split; [exact Cz|]. split; [exact Ev|].
    destruct (Bal 0) as [Nf Of]. assert (X : recorded lg 0 evs = map (rel P) es).
    { assert (Fe := feeds_alone m lg evs 0 [] Nf). rewrite L, Of in Fe.
      - cbn [app] in Fe. assert (Y : bufd (map (rel P) es) = bufd (recorded lg 0 evs)); [|symmetry; now apply bufd_inj].
        assert (Z : forall a c, evs = a ++ c -> opened lg 0 a < 2 ^ 32); [|specialize (Fe Z); now injection Fe].
        intros a c Eac. assert (Sp : exists sa sb, s = sa ++ sb /\ of i sa = a).
        { clear -Ev Eac. subst evs. revert a c Eac. induction s as [|[j e] s0 IH]; intros a c E.
          - destruct a; [|discriminate E]. now exists [], [].
          - rewrite of_cons in E. destruct a as [|e' a]; [now exists [], ((j, e) :: s0)|]. destruct (Nat.eqb j i) eqn:Ej.
            + injection E as <- E. destruct (IH a c E) as (sa & sb & -> & Ha). exists ((j, e) :: sa), sb. split; [reflexivity|]. now rewrite of_cons, Ej, Ha.
            + destruct (IH (e' :: a) c E) as (sa & sb & -> & Ha). exists ((j, e) :: sa), sb. split; [reflexivity|]. now rewrite of_cons, Ej, Ha. }
        destruct Sp as (sa & sb & Es & Ha). specialize (Fw sa sb Es). rewrite (total_one n i) in Fw by exact Li. rewrite Ha in Fw. lia. }
    split; [exact X|]. split; [exact Of|]. split; [exact Nf|]. exact Rp. }
  set (T := fun i => let '(T, _, _, _, _, _) := D i in T). set (x := fun i => let '(_, x, _, _, _, _) := D i in x). set (P := fun i => let '(_, _, P, _, _, _) := D i in P).
  set (z := fun i => let '(_, _, _, z, _, _) := D i in z). set (evs := fun i => let '(_, _, _, _, evs, _) := D i in evs). set (es := fun i => let '(_, _, _, _, _, es) := D i in es).
  assert (HK : forall i, (i < n)%nat -> walk t v (t_at (th i)) = Some (T i, x i, P i)) by (intros i Li; specialize (HD i Li); unfold T, x, P; destruct (D i) as [[[[[? ?] ?] ?] ?] ?]; tauto).
  assert (HE : forall i, (i < n)%nat -> exists rets, exec m (T i) (x i) (t_calls (th i)) = (z i, (evs i, Ok rets))) by (intros i Li; specialize (HD i Li); unfold T, x, z, evs; destruct (D i) as [[[[[? ?] ?] ?] ?] ?]; tauto).
  assert (HW : forall i, (i < n)%nat -> wt (T i) (z i) = true) by (intros i Li; specialize (HD i Li); unfold T, z; destruct (D i) as [[[[[? ?] ?] ?] ?] ?]; tauto).
  assert (HC : forall i, (i < n)%nat -> coh (rt_at (mkRt lg Root) (P i)) (z i)) by (intros i Li; specialize (HD i Li); unfold P, z; destruct (D i) as [[[[[? ?] ?] ?] ?] ?]; tauto).
  assert (HO : forall i, (i < n)%nat -> of i s = evs i /\ recorded lg 0 (evs i) = map (rel (P i)) (es i) /\ opened lg 0 (evs i) = 0 /\ nests_from lg 0 (evs i)) by (intros i Li; specialize (HD i Li); unfold P, evs, es; destruct (D i) as [[[[[? ?] ?] ?] ?] ?]; tauto).
  assert (HR : forall i, (i < n)%nat -> forall m' w, Forall entry_ok (es i) -> wt (T i) w = true -> same (x i) w -> exists w', handle_all m' (T i) (es i) w = (w', Ok tt) /\ wt (T i) w' = true /\ same (z i) w') by (intros i Li; specialize (HD i Li); unfold T, x, z, es; destruct (D i) as [[[[[? ?] ?] ?] ?] ?]; tauto).
  clearbody T x P z evs es. clear HD D.
  assert (Ev' : v' = puts t v (map (fun i => (t_at (th i), z i)) (seq 0 n))).
  { unfold v'. rewrite leave_puts.
    - f_equal. rewrite <- (map_seq_nth _ d0). apply map_ext_in. intros i I. apply in_seq in I. fold (th i). rewrite (HK i) by lia. destruct (HE i ltac:(lia)) as [rets ->]. reflexivity.
    - apply Forall_forall. intros q I. rewrite Forall_forall in Lg. destruct (Lg q I) as (t1 & x1 & p1 & K1 & _). now exists t1, x1, p1. }
  assert (Ast : map (fun i => t_at (th i)) (seq 0 n) = map t_at ths) by apply (map_seq_nth t_at d0).
  assert (Afst : forall (f : nat -> val), map fst (map (fun i => (t_at (th i), f i)) (seq 0 n)) = map t_at ths) by (intros f; rewrite map_map; exact Ast).
  assert (G : wt t v' = true /\ coh (mkRt lg Root) v').
  { rewrite Ev'. apply puts_good; auto; [rewrite Afst; exact Ap|]. apply Forall_map, Forall_forall. intros i I. apply in_seq in I. cbn [fst snd]. exists (T i), (x i), (P i). split; [apply HK; lia|]. split; [apply HW|apply HC]; lia. }
  destruct G as [Wv' Cv']. split; [exact Wv'|]. split; [now apply coh_placed|]. split.
  { apply Forall_forall. intros q I. destruct (In_nth _ _ d0 I) as (i & Li & <-). destruct (HE i Li) as [rets E]. do 6 eexists. split; [exact (HK i Li)|exact E]. }
  destruct (mixed_feeds m lg n s (fun _ => 0) []) as (les & Fe & Hl & Ho).
  { exact Mi. }
  { intros i Li. destruct (HO i Li) as (-> & _ & _ & X). exact X. }
  { intros a i e b Es j _ Nj. exact (Co a i e b Es j Nj). }
  { exact Fw. }
  assert (Z0 : forall k, total k (fun _ => 0) = 0) by (intros k; now apply total_zero). rewrite Z0 in Fe.
  assert (Z1 : total n (fun i => opened lg 0 (of i s)) = 0) by (apply total_zero; intros i Li; destruct (HO i Li) as (-> & _ & -> & _); reflexivity). rewrite Z1 in Fe. cbn [app] in Fe.
  exists (bufd (map snd les)). split; [exact Fe|]. rewrite map_fst_bufd. intros F. destruct (buf_bytes_spec m' (bufd (map snd les))) as (b' & Eb & _); [now rewrite map_fst_bufd|].
  assert (Fo : Forall entry_ok (map snd les)) by (eapply Forall_impl; [|exact F]; intros e [X _]; exact X).
  assert (Foi : forall i, (i < n)%nat -> Forall entry_ok (es i)).
  { intros i Li. destruct (HO i Li) as (E1 & E2 & _). apply Forall_forall. intros e I. apply (rel_ok (P i)). rewrite Forall_forall in Fo. apply Fo.
    assert (I2 : In (rel (P i) e) (of i les)) by (rewrite (Ho i Li), E1, E2; now apply in_map). unfold of in I2. apply in_map_iff in I2. destruct I2 as (q & <- & I2). apply filter_In in I2. apply in_map. tauto. }
  destruct (finite_choice (v, v) n (fun i '(y, y') => walk t u (t_at (th i)) = Some (T i, y, P i) /\ handle_all m'' (T i) (es i) y = (y', Ok tt) /\ same (z i) y')) as [Y HY].
  { intros i Li. destruct (same_walk _ _ _ _ _ _ _ Sm (HK i Li)) as (y & Ky & Sy). destruct (walk_wt t _ u _ _ _ O S Wu Ky) as (_ & _ & Wy).
    destruct (HR i Li m'' y (Foi i Li) Wy Sy) as (y' & Hy & _ & Sy'). now exists (y, y'). }
  assert (Hh : handle_all m'' t (map snd les) u = (puts t u (map (fun i => (t_at (th i), snd (Y i))) (seq 0 n)), Ok tt)).
  { apply (mixed_replay m'' t n (fun i => t_at (th i)) T P (fun i => snd (Y i)) O S) with (Y := fun i => fst (Y i)) (E := es); auto.
    - rewrite Ast. exact Ap.
    - intros i Li. specialize (HY i Li). destruct (Y i). tauto.
    - intros i Li. destruct (HO i Li) as (E1 & E2 & _). now rewrite (Ho i Li), E1.
    - intros i Li. specialize (HY i Li). destruct (Y i). tauto. }
  set (u' := puts t u (map (fun i => (t_at (th i), snd (Y i))) (seq 0 n))) in *.
  assert (Sm' : same v' u').
  { rewrite Ev'. apply same_puts; [exact Sm|now rewrite !Afst|rewrite Afst; exact Ap| |].
    - rewrite Afst, <- Ast. apply Forall_map, Forall_forall. intros i I. apply in_seq in I. do 3 eexists. apply HK. lia.
    - assert (G : forall l, (forall i, In i l -> (i < n)%nat) -> Forall2 (fun a b => same (snd a) (snd b)) (map (fun i => (t_at (th i), z i)) l) (map (fun i => (t_at (th i), snd (Y i))) l)).
      { induction l as [|i l IH]; intros H; constructor; [|apply IH; intros j I; apply H; now right]. cbn. specialize (HY i (H i (or_introl eq_refl))). destruct (Y i). tauto. }
      apply G. intros i I. apply in_seq in I. lia. }
  assert (Wu' : wt t u' = true) by (pose proof (handle_all_wt m'' t _ O S Fo u Wu) as X; now rewrite Hh in X).
  exists (concat (map entry_wire (map snd les))), b', u'. split; [now rewrite Eb, map_fst_bufd|].
  assert (Er : replay m'' t u (concat (map entry_wire (map snd les))) = (u', Ok tt)).
  { unfold replay. rewrite (is_root_coh t u lg' S R Wu Plu). pose proof (replay_run m'' t (map snd les) (fits_replay _ F) [] u) as X.
    rewrite app_nil_r in X. rewrite X, Hh. reflexivity. }
  split; [exact Er|]. split; [exact Sm'|]. split; [now apply (norm_veqb t)|]. split; [exact Wu'|]. apply coh_placed; try assumption.
  pose proof (handle_all_coh m'' t _ _ O S Fo u Wu Plu) as X. now rewrite Hh in X.
Qed.
Print Assumptions c78_converge.

(** Operations that do not pause the logger - everything but [push] and operations with callbacks - may
    come in any order. *)
Theorem c78_any_order : forall m m' m'' t lg lg' v u ths s,
  ty_ok t = true -> state_ty t = true -> root_ty t = true ->
  wt t v = true -> placed (mkRt lg Root) t v -> wt t u = true -> placed (mkRt lg' Root) t u -> same v u ->
  ForallOrdPairs apart (map t_at ths) ->
  Forall (fun th => exists t' x p, walk t v (t_at th) = Some (t', x, p) /\ legal m t' x (t_calls th)) ths ->
  Forall (fun th => Forall (fun c => pauses (c_op c) = false) (t_calls th)) ths -> mixes m t v ths s ->
  let v' := leave m t v ths v in
  exists b, feeds m lg (rl_new []) (map snd s) = Ok (mkRL b 0) /\
    (Forall fits (map fst b) ->
     exists bs b' u', buf_bytes m' b = Ok (bs, b') /\ replay m'' t u bs = (u', Ok tt) /\ same v' u' /\ veqb v' u' = true).
Proof.
  intros m m' m'' t lg lg' v u ths s O S R W Pl Wu Plu Sm Ap Lg Np Mx v'.
  assert (Pl' := Pl). apply placed_coh in Pl'; try assumption.
  assert (Il : forall i, Forall is_log (of i s)).
  { intros i. destruct (nth_error ths i) as [th|] eqn:Ni.
    - rewrite (proj2 Mx i th Ni). apply nth_error_In in Ni. rewrite Forall_forall in Lg, Np. destruct (Lg th Ni) as (t' & x & p & K & Le). specialize (Np th Ni).
      destruct (walk_wt t _ v t' x p O S W K) as (O1 & S1 & W1). pose proof (walk_coh _ t v t' x p _ O W Pl' K) as C1.
      destruct (exec_effect m t' _ O1 S1 (t_calls th) x W1 C1 Le) as (z & evs & rets & es & E & _). unfold calls_of. rewrite K, E. cbn [fst snd]. exact (exec_plain m t' _ _ _ _ _ Np E).
    - apply nth_error_None in Ni. replace (of i s) with (@nil lev); [constructor|]. destruct (of i s) as [|c l] eqn:E; [reflexivity|]. exfalso.
      assert (I : In c (of i s)) by (rewrite E; now left). unfold of in I. apply in_map_iff in I. destruct I as ([j c'] & _ & I). apply filter_In in I. destruct I as [I Ej].
      cbn in Ej. apply Nat.eqb_eq in Ej. subst j. apply (proj1 Mx) in I. lia. }
  assert (Op : forall a b i, s = a ++ b -> opened lg 0 (of i a) = 0).
  { intros a b i ->. apply opened_logs. specialize (Il i). rewrite of_app in Il. now apply Forall_app in Il. }
  destruct (c78_converge m m' m'' t lg lg' v u ths s) as (_ & _ & _ & b & Fe & Rp); try assumption.
  - eapply Forall_impl; [|exact Np]. intros th F. eapply Forall_impl; [|exact F]. intros c. cbn beta. destruct (c_op c); cbn; try discriminate; auto.
  - intros a i e b Es j _. exact (Op _ _ _ Es).
  - intros a b Es. rewrite total_zero; [reflexivity|]. intros i _. exact (Op _ _ _ Es).
  - exists b. split; [exact Fe|]. intros F. destruct (Rp F) as (bs & b' & u' & H1 & H2 & H3 & H4 & _). now exists bs, b', u'.
Qed.
Print Assumptions c78_any_order.

(** [push] pauses the logger, and so hides what other threads log in the meantime: a thread pushes to a
    list, another inserts into a map; the entry of the second is lost, and the replica ends different.
    All conditions of [c78_converge] but [considerate] are met. *)
Definition two_threads : list thread :=
  [ mkThread [SField 0] [mkCall [] junk (OPush (vPoint rt_default 1 2 3))];
    mkThread [SField 1] [mkCall [] junk (OInsert 6 (set_rt (nested (nested ex_rt 1) 6) (vNone ex_rt)))] ].
Definition two_calls (i : nat) : list lev :=
  match nth_error two_threads i with Some th => calls_of Debug tGame (dflt tGame ex_rt) th | None => [] end.
Definition unlucky : schedule :=
  match two_calls 0, two_calls 1 with
  | [p; u; l], [e] => [(0%nat, p); (1%nat, e); (0%nat, u); (0%nat, l)]
  | _, _ => []
  end.
Theorem c78_converge_refuted : exists t lg v u ths s b,
  ty_ok t = true /\ state_ty t = true /\ root_ty t = true /\ wt t v = true /\ placed (mkRt lg Root) t v /\
  wt t u = true /\ placed (mkRt 5 Root) t u /\ same v u /\ ForallOrdPairs apart (map t_at ths) /\
  Forall (fun th => exists t' x p, walk t v (t_at th) = Some (t', x, p) /\ legal Debug t' x (t_calls th)) ths /\
  Forall (fun th => Forall (fun c => op_balanced (c_op c)) (t_calls th)) ths /\
  mixes Debug t v ths s /\ few lg (length ths) s /\ feeds Debug lg (rl_new []) (map snd s) = Ok (mkRL b 0) /\ Forall fits (map fst b) /\
  match buf_bytes Debug b with
  | Ok (bs, _) => snd (replay Debug t u bs) = Ok tt /\ veqb (leave Debug t v ths v) (fst (replay Debug t u bs)) = false
  | _ => False
  end.
Proof.
  exists tGame, 1, (dflt tGame ex_rt), (dflt tGame (mkRt 5 Root)), two_threads, unlucky.
  eexists. split; [reflexivity|]. split; [reflexivity|]. split; [reflexivity|]. split; [reflexivity|]. split; [apply coh_placed; reflexivity|].
  split; [reflexivity|]. split; [apply coh_placed; reflexivity|]. split; [vm_compute; reflexivity|]. split.
  { repeat constructor; cbn; discriminate. }
  split.
  { repeat constructor; cbn [t_at t_calls]; do 3 eexists; (split; [reflexivity|]); (legal_step; [|exact I]).
    - arg.
    - split; [reflexivity|]. split; [arg|reflexivity]. }
  split; [repeat constructor|]. split.
  { split.
    - intros i c H. vm_compute in H. cbn. intuition (try match goal with H : _ = _ |- _ => injection H as <- _ end; lia).
    - intros [|[|i]] th E; [injection E as <-; vm_compute; reflexivity|injection E as <-; vm_compute; reflexivity|destruct i; discriminate E]. }
  split.
  { intros a b E. vm_compute in E. do 5 (destruct a as [|? a]; [vm_compute; reflexivity|injection E as <- E || discriminate E]). }
  split; [vm_compute; reflexivity|]. split.
  { apply Forall_cons; [|apply Forall_nil]. split; [|vm_compute; reflexivity]. split; [|split].
    - apply Forall_cons; [reflexivity|apply Forall_nil].
    - intros k E. discriminate E.
    - vm_compute. repeat (apply Forall_cons; [reflexivity|]). apply Forall_nil. }
  vm_compute. split; reflexivity.
Qed.
Print Assumptions c78_converge_refuted.

(** Three threads: two on items of the list, one on the map, whose setter first switches the variant;
    another thread comes in between. *)
Definition start : val := fst (exec Debug tGame (dflt tGame ex_rt) (firstn 4 game_calls)).
Definition three_threads : list thread :=
  [ mkThread [SField 0; SItem 0] [mkCall [] junk (OSet 0 (VInt I32 5)); mkCall [] junk (OSet 2 (VInt I32 6))];
    mkThread [SField 0; SItem 1] [mkCall [] junk (OSet 0 (VInt I32 7))];
    mkThread [SField 1] [mkCall [SKey 6] junk (OVSet 1 0 (vPoint rt_default 7 8 9)); mkCall [SKey 6; SField 0] junk (OSet 1 (VInt I32 3))] ].
Definition three_calls (i : nat) : list lev :=
  match nth_error three_threads i with Some th => calls_of Debug tGame start th | None => [] end.
Definition three_mixed : schedule :=
  match three_calls 0, three_calls 1, three_calls 2 with
  | [a; b], [c], [d; e; f] => [(2%nat, d); (0%nat, a); (2%nat, e); (1%nat, c); (2%nat, f); (0%nat, b)]
  | _, _, _ => []
  end.
Example c78_case :
  map (fun c => match c with LLog _ e => entry_path e | _ => [] end) (map snd three_mixed) =
    [[1; 6]; [0; 0; 0]; [1; 6; 1; 0]; [0; 1; 0]; [1; 6; 1; 0; 1]; [0; 0; 2]] /\
  map (fun i => length (of i three_mixed)) [0%nat; 1%nat; 2%nat] = [2%nat; 1%nat; 3%nat] /\
  match feeds Debug 1 (rl_new []) (map snd three_mixed) with
  | Ok L =>
      match buf_bytes Debug (rl_inner L) with
      | Ok (bs, _) =>
          veqb (leave Debug tGame start three_threads start) (fst (replay Release tGame (set_rt (mkRt 5 Root) start) bs)) &&
          negb (veqb start (leave Debug tGame start three_threads start))
      | _ => false
      end
  | _ => false
  end = true.
Proof. vm_compute. auto. Qed.
