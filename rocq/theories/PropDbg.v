(** C95: Debug output. *)
From Verif Require Import Base Varint WireFmt Utf8 Types Ser Spec De Log State StateSpec ValInd VarintProofs WireProofs SerProofs TypeProofs DeProofs RoundTrip MergeProofs NormProofs EqProofs LogProofs TreeProofs CohProofs HandleProofs OpProofs Examples Json PropJson Dbg.

(** The loops of [dbg_of]. *)
Section Loops.
  Context (a : addr) (h : store).
  Fixpoint dbg_items (i : nat) (l : list val) : list dbg :=
    match l with [] => [] | x :: l' => dbg_of (i :: a) h x :: dbg_items (S i) l' end.
  Fixpoint dbg_fields (i : nat) (l : list (finfo * val)) : list (dname * dbg) :=
    match l with [] => [] | (fi, x) :: l' => (DField (f_tag fi), dbg_of (i :: a) h x) :: dbg_fields (S i) l' end.
  Fixpoint dbg_hash (i : nat) (l : list (val * val)) : list (dbg * dbg) :=
    match l with [] => [] | (k, x) :: l' => (dbg_of (i :: a) h k, dbg_of (S i :: a) h x) :: dbg_hash (S (S i)) l' end.
  Fixpoint dbg_entries (i : nat) (l : list (N * val)) : list (dbg * dbg) :=
    match l with [] => [] | (k, x) :: l' => (GInt (Z.of_N k), dbg_of (i :: a) h x) :: dbg_entries (S i) l' end.
End Loops.
Definition qfields (fs : list (finfo * val)) : list (finfo * val) := map (fun p : finfo * val => let '(fi, x) := p in (fi, quiet x)) fs.
Definition qhash (l : list (val * val)) : list (val * val) := map (fun e : val * val => let '(k, x) := e in (quiet k, quiet x)) l.
Definition qentries (l : list (N * val)) : list (N * val) := map (fun e : N * val => let '(k, x) := e in (k, quiet x)) l.
Lemma dg_vec a h l : dbg_of a h (VVec l) = GSeq (dbg_items a h 0 l). Proof. reflexivity. Qed.
Lemma dg_arr a h l : dbg_of a h (VArr l) = GSeq (dbg_items a h 0 l). Proof. reflexivity. Qed.
Lemma dg_tup a h l : dbg_of a h (VTup l) = GTup (dbg_items a h 0 l). Proof. reflexivity. Qed.
Lemma dg_hash a h l : dbg_of a h (VHash l) = GAssoc (dbg_hash a h 0 l). Proof. reflexivity. Qed.
Lemma dg_struct a h c r fs : dbg_of a h (VStruct c r fs) = GRec HStruct (dbg_fields a h 0 fs ++ own_dbg c (h a) r). Proof. reflexivity. Qed.
Lemma dg_enum a h tag c r fs : dbg_of a h (VEnum tag c r fs) = GRec (HVariant tag) (dbg_fields a h 0 fs ++ own_dbg c (h a) r). Proof. reflexivity. Qed.
Lemma dg_list a h r l : dbg_of a h (VList r l) = GRec HList [(DItems, GSeq (dbg_items a h 0 l)); (DCache, cache_dbg (h a)); (DRuntime, rt_dbg r)].
Proof. reflexivity. Qed.
Lemma dg_map a h r l : dbg_of a h (VMap r l) = GRec HMap [(DEntries, GAssoc (dbg_entries a h 0 l)); (DCache, cache_dbg (h a)); (DRuntime, rt_dbg r); (DMarker, GMarker)].
Proof. reflexivity. Qed.

(** ** Paths *)

(** The path in a runtime is shown from the root on, with the numbers that entries have in their paths. *)
Theorem c95_path : forall p, node_dbg p = GSeq (GRec HRoot [] :: map (fun n => GRec HChild [(DValue, GInt (Z.of_N n))]) (collect_values p)).
Proof.
  intros p. unfold node_dbg. rewrite rev_app_distr. cbn [rev app map one_dbg]. do 2 f_equal.
  unfold collect_values. induction p as [|p IH n]; [reflexivity|]. cbn [pushed rev collect_values_to]. rewrite !map_app, IH. reflexivity.
Qed.
Print Assumptions c95_path.
Lemma values_inj p : forall q, collect_values p = collect_values q -> p = q.
Proof.
  unfold collect_values. induction p as [|p IH n]; intros [|q k] E; cbn [collect_values_to] in E; [reflexivity|destruct (collect_values_to q []); discriminate E|destruct (collect_values_to p []); discriminate E|].
  apply app_inj_tail in E. destruct E as [E ->]. now rewrite (IH q).
Qed.
Lemma node_inj p q : node_dbg p = node_dbg q -> p = q.
Proof.
  rewrite !c95_path. intros E. injection E as E. apply values_inj. revert E. generalize (collect_values q). induction (collect_values p) as [|n l IH]; intros [|k l'] E; try discriminate E; [reflexivity|].
  cbn [map] in E. injection E as E1 E2. f_equal; [lia|now apply IH].
Qed.
Lemma rt_inj r r' : rt_dbg r = rt_dbg r' <-> quiet_rt r = quiet_rt r'.
Proof.
  unfold rt_dbg, quiet_rt. split; intros E.
  - f_equal. apply node_inj. unfold node_dbg. injection E as E. now rewrite E.
  - injection E as ->. reflexivity.
Qed.

(** ** What is shown *)

Definition DT (t : ty) : Prop := forall v v' a h h', wt t v = true -> wt t v' = true -> dbg_of a h v = dbg_of a h' v' -> quiet v = quiet v' /\ agree a v h h'.
Lemma agree_of a v h h' : (forall x, v <> VBox x) -> (has_cache v = true -> h a = h' a) -> slots_agree a 0 (slots v) h h' -> agree a v h h'.
Proof.
  intros B O S b y At C. inversion At as [v0 E1 E2|v0 b0 y0 At' E1 E2|v0 i s b0 y0 Nt At' E1 E2]; subst.
  - now apply O.
  - now destruct (B v0).
  - exact (S i s Nt b y At' C).
Qed.
Lemma slots_agree_nil a i h h' : slots_agree a i [] h h'.
Proof. intros [|k] s E; discriminate E. Qed.
Lemma slots_agree_one a i s sl h h' : agree (i :: a) (snd s) h h' -> slots_agree a (S i) sl h h' -> slots_agree a i (s :: sl) h h'.
Proof.
  intros A S [|k] s' E; cbn in E.
  - injection E as <-. now rewrite Nat.add_0_r.
  - rewrite Nat.add_succ_r. now apply (S k).
Qed.
Lemma items_show t : DT t -> forall l l' a h h' i, forallb (wt t) l = true -> forallb (wt t) l' = true ->
  dbg_items a h i l = dbg_items a h' i l' -> map quiet l = map quiet l' /\ slots_agree a i (map islot l) h h'.
Proof.
  intros T. induction l as [|x l IH]; intros [|x' l'] a h h' i W W' E; try discriminate E; [split; [reflexivity|apply slots_agree_nil]|].
  cbn [forallb dbg_items map] in *. apply andb_prop in W. apply andb_prop in W'. injection E as E1 E2.
  destruct (T _ _ _ _ _ (proj1 W) (proj1 W') E1) as [-> A]. destruct (IH _ _ _ _ _ (proj2 W) (proj2 W') E2) as [-> B]. split; [reflexivity|now apply slots_agree_one].
Qed.
Lemma tuple_shows ts : Forall DT ts -> forall l l' a h h' i, wt_list ts l = true -> wt_list ts l' = true ->
  dbg_items a h i l = dbg_items a h' i l' -> map quiet l = map quiet l' /\ slots_agree a i (map islot l) h h'.
Proof.
  induction 1 as [|t ts T _ IH]; intros [|x l] [|x' l'] a h h' i W W' E; try discriminate W; try discriminate W'; [split; [reflexivity|apply slots_agree_nil]|].
  cbn [wt_list dbg_items map] in *. apply andb_prop in W. apply andb_prop in W'. injection E as E1 E2.
  destruct (T _ _ _ _ _ (proj1 W) (proj1 W') E1) as [-> A]. destruct (IH _ _ _ _ _ _ (proj2 W) (proj2 W') E2) as [-> B]. split; [reflexivity|now apply slots_agree_one].
Qed.
Lemma fields_show ts : Forall (fun p => DT (snd p)) ts -> forall l l' a h h' i, wt_fields ts l = true -> wt_fields ts l' = true ->
  dbg_fields a h i l = dbg_fields a h' i l' -> qfields l = qfields l' /\ slots_agree a i (map fslot l) h h'.
Proof.
  induction 1 as [|[fi t] ts T _ IH]; intros [|[f1 x] l] [|[f2 x'] l'] a h h' i W W' E; try discriminate W; try discriminate W'; [split; [reflexivity|apply slots_agree_nil]|].
  cbn [wt_fields dbg_fields map qfields snd] in *. apply andb_prop in W. destruct W as [W0 W]. apply andb_prop in W0. destruct W0 as [F1 Wx].
  apply andb_prop in W'. destruct W' as [W0 W']. apply andb_prop in W0. destruct W0 as [F2 Wx']. apply finfo_eqb_eq in F1. apply finfo_eqb_eq in F2. subst f1 f2. injection E as E1 E2.
  destruct (T _ _ _ _ _ Wx Wx' E1) as [-> A]. fold (qfields l) (qfields l'). destruct (IH _ _ _ _ _ _ W W' E2) as [-> B]. split; [reflexivity|now apply slots_agree_one].
Qed.
Lemma hash_shows k t : DT k -> DT t -> forall l l' a h h' i,
  forallb (fun e : val * val => wt k (fst e) && wt t (snd e)) l = true -> forallb (fun e : val * val => wt k (fst e) && wt t (snd e)) l' = true ->
  dbg_hash a h i l = dbg_hash a h' i l' -> qhash l = qhash l' /\ slots_agree a i (flat_map hslots l) h h'.
Proof.
  intros K T. induction l as [|[y x] l IH]; intros [|[y' x'] l'] a h h' i W W' E; try discriminate E; [split; [reflexivity|apply slots_agree_nil]|].
  cbn [forallb dbg_hash map qhash flat_map hslots app fst snd] in *. apply andb_prop in W. destruct W as [W0 W]. apply andb_prop in W0.
  apply andb_prop in W'. destruct W' as [W0' W']. apply andb_prop in W0'. injection E as E1 E2 E3.
  destruct (K _ _ _ _ _ (proj1 W0) (proj1 W0') E1) as [-> A]. destruct (T _ _ _ _ _ (proj2 W0) (proj2 W0') E2) as [-> B].
  fold (qhash l) (qhash l'). destruct (IH _ _ _ _ _ W W' E3) as [-> C]. split; [reflexivity|]. apply slots_agree_one; [exact A|]. now apply slots_agree_one.
Qed.
Lemma own_shows (c : bool) n n' r r' : (match r with Some _ => true | None => false end) = (match r' with Some _ => true | None => false end) ->
  own_dbg c n r = own_dbg c n' r' -> option_map quiet_rt r = option_map quiet_rt r' /\ (c = true -> n = n').
Proof.
  intros R E. unfold own_dbg in E.
  destruct c; destruct r as [r|]; destruct r' as [r'|]; try discriminate R; cbn [app] in E; try discriminate E; split; try reflexivity; try discriminate;
    cbn [option_map]; try (intros _; injection E as E; lia).
  - f_equal. apply rt_inj. injection E as _ E. unfold rt_dbg, node_dbg. now rewrite E.
  - f_equal. apply rt_inj. injection E as E. unfold rt_dbg, node_dbg. now rewrite E.
Qed.
Lemma entries_show t : DT t -> forall l l' a h h' i,
  forallb (fun e : N * val => (fst e <? 2 ^ 32) && wt t (snd e)) l = true -> forallb (fun e : N * val => (fst e <? 2 ^ 32) && wt t (snd e)) l' = true ->
  dbg_entries a h i l = dbg_entries a h' i l' -> qentries l = qentries l' /\ slots_agree a i (map mslot l) h h'.
Proof.
  intros T. induction l as [|[y x] l IH]; intros [|[y' x'] l'] a h h' i W W' E; try discriminate E; [split; [reflexivity|apply slots_agree_nil]|].
  cbn [forallb dbg_entries map qentries fst snd] in *. apply andb_prop in W. destruct W as [W0 W]. apply andb_prop in W0.
  apply andb_prop in W'. destruct W' as [W0' W']. apply andb_prop in W0'. injection E as E1 E2 E3. apply N2Z.inj in E1. subst y'.
  destruct (T _ _ _ _ _ (proj2 W0) (proj2 W0') E2) as [-> B].
  fold (qentries l) (qentries l'). destruct (IH _ _ _ _ _ W W' E3) as [-> C]. split; [reflexivity|now apply slots_agree_one].
Qed.
Lemma dbg_fields_length a h l : forall i, length (dbg_fields a h i l) = length l.
Proof. induction l as [|[fi x] l IH]; intros i; [reflexivity|]. cbn. now rewrite IH. Qed.
Lemma body_shows ts : Forall (fun p => DT (snd p)) ts -> forall l l' a h h' (c : bool) r r', wt_fields ts l = true -> wt_fields ts l' = true ->
  (match r with Some _ => true | None => false end) = (match r' with Some _ => true | None => false end) ->
  dbg_fields a h 0 l ++ own_dbg c (h a) r = dbg_fields a h' 0 l' ++ own_dbg c (h' a) r' ->
  qfields l = qfields l' /\ option_map quiet_rt r = option_map quiet_rt r' /\ (c = true -> h a = h' a) /\ slots_agree a 0 (map fslot l) h h'.
Proof.
  intros F l l' a h h' c r r' W W' R E. apply app_inj_len in E.
  - destruct E as [E1 E2]. destruct (fields_show ts F _ _ _ _ _ _ W W' E1) as [Q S]. destruct (own_shows c _ _ _ _ R E2) as [O C]. auto.
  - now rewrite !dbg_fields_length, (wt_fields_length _ _ W), (wt_fields_length _ _ W').
Qed.
Lemma dbg_shows t : DT t.
Proof.
  induction t using ty_ind'; intros v v' a h h' W W' E; destruct v; try discriminate W; destruct v'; try discriminate W';
    try match goal with |- _ /\ agree _ ?v _ _ => match v with VBox _ => fail 1 | _ => assert (Ag := agree_of a v h h' ltac:(discriminate)) end end; cbn [has_cache slots] in Ag || idtac.
  - cbn [wt dbg_of] in *. apply andb_prop in W. apply andb_prop in W'. destruct W as [W _], W' as [W' _]. apply ikind_eqb_eq in W. apply ikind_eqb_eq in W'.
    split; [congruence|]. apply Ag; [discriminate|apply slots_agree_nil].
  - cbn in E. split; [congruence|]. apply Ag; [discriminate|apply slots_agree_nil].
  - cbn in E. split; [congruence|]. apply Ag; [discriminate|apply slots_agree_nil].
  - cbn in E. split; [|apply Ag; [discriminate|apply slots_agree_nil]]. injection E as E. cbn [quiet]. f_equal. clear - E. revert s0 E.
    induction s as [|b s IH]; intros [|b' s'] E; try discriminate E; [reflexivity|]. cbn [map] in E. injection E as B E. f_equal; [lia|now apply IH].
  - destruct o as [x|], o0 as [x'|]; cbn [dbg_of quiet wt slots] in *; try discriminate E.
    + injection E as E. destruct (IHt _ _ _ _ _ W W' E) as [-> A]. split; [reflexivity|]. apply Ag; [discriminate|]. apply slots_agree_one; [exact A|apply slots_agree_nil].
    + split; [reflexivity|]. apply Ag; [discriminate|apply slots_agree_nil].
  - rewrite !dg_vec in E. injection E as E. destruct (items_show t IHt _ _ _ _ _ _ W W' E) as [Q S]. cbn [quiet]. rewrite Q. split; [reflexivity|]. now apply Ag.
  - rewrite !dg_arr in E. injection E as E. cbn [wt] in W, W'. apply andb_prop in W. apply andb_prop in W'.
    destruct (items_show t IHt _ _ _ _ _ _ (proj2 W) (proj2 W') E) as [Q S]. cbn [quiet]. rewrite Q. split; [reflexivity|]. now apply Ag.
  - rewrite !dg_tup in E. injection E as E. rewrite wt_tup_eq in *. destruct (tuple_shows ts H _ _ _ _ _ _ W W' E) as [Q S]. cbn [quiet]. rewrite Q. split; [reflexivity|]. now apply Ag.
  - rewrite !dg_hash in E. injection E as E. cbn [wt] in W, W'. apply andb_prop in W. apply andb_prop in W'.
    destruct (hash_shows _ _ IHt1 IHt2 _ _ _ _ _ _ (proj1 W) (proj1 W') E) as [Q S]. cbn [quiet]. fold (qhash l) (qhash l0). rewrite Q. split; [reflexivity|]. now apply Ag.
  - destruct (IHt v v' a h h' W W' E) as [Q A]. cbn [quiet]. rewrite Q. split; [reflexivity|]. intros b y At C. inversion At as [v0 E1 E2|v0 b0 y0 At' E1 E2|v0 i s b0 y0 Nt At' E1 E2]; subst.
    + exact (A b v (at_here _ _) C).
    + exact (A b y At' C).
    + destruct i; discriminate Nt.
  - rewrite !dg_struct in E. injection E as E. rewrite wt_struct_eq in *. apply andb_prop in W. destruct W as [W0 W]. apply andb_prop in W0. destruct W0 as [C R].
    apply andb_prop in W'. destruct W' as [W0 W']. apply andb_prop in W0. destruct W0 as [C' R']. apply eqb_prop in C. apply eqb_prop in R. apply eqb_prop in C'. apply eqb_prop in R'.
    assert (c0 = c) as -> by congruence.
    assert (Rr : (match r with Some _ => true | None => false end) = (match r0 with Some _ => true | None => false end)) by congruence.
    destruct (body_shows fs H _ _ _ _ _ _ _ _ W W' Rr E) as (Q & O & Cc & S). cbn [quiet]. fold (qfields fs0) (qfields fs1). rewrite Q, O.
    split; [reflexivity|]. now apply Ag.
  - rewrite !dg_enum in E. injection E as <- E. rewrite wt_enum_eq in *. apply andb_prop in W. destruct W as [W0 W]. apply andb_prop in W0. destruct W0 as [R _].
    apply andb_prop in W'. destruct W' as [W0 W']. apply andb_prop in W0. destruct W0 as [R' _]. apply eqb_prop in R. apply eqb_prop in R'.
    destruct (find_variant vs tag) as [[[n1 c1] ts]|] eqn:V; [|discriminate W].
    apply andb_prop in W. destruct W as [C W]. apply andb_prop in W'. destruct W' as [C' W']. apply eqb_prop in C. apply eqb_prop in C'. subst c c0.
    assert (Vi : In (n1, c1, ts) vs) by (unfold find_variant in V; now apply find_some in V). rewrite Forall_forall in H.
    assert (Rr : (match r with Some _ => true | None => false end) = (match r0 with Some _ => true | None => false end)) by congruence.
    destruct (body_shows ts (H _ Vi) _ _ _ _ _ _ _ _ W W' Rr E) as (Q & O & Cc & S). cbn [quiet]. fold (qfields fs) (qfields fs0). rewrite Q, O.
    split; [reflexivity|]. now apply Ag.
  - rewrite !dg_list in E. assert (E1 : dbg_items a h 0 l = dbg_items a h' 0 l0) by congruence. assert (E2 : rt_dbg r = rt_dbg r0) by congruence. assert (E3 : cache_dbg (h a) = cache_dbg (h' a)) by congruence.
    destruct (items_show t IHt _ _ _ _ _ _ W W' E1) as [Q S]. apply rt_inj in E2. cbn [quiet]. rewrite Q, E2. split; [reflexivity|]. apply Ag; [|exact S]. intros _. injection E3 as E3. lia.
  - rewrite !dg_map in E. assert (E1 : dbg_entries a h 0 es = dbg_entries a h' 0 es0) by congruence. assert (E2 : rt_dbg r = rt_dbg r0) by congruence. assert (E3 : cache_dbg (h a) = cache_dbg (h' a)) by congruence.
    cbn [wt] in W, W'. apply andb_prop in W. apply andb_prop in W'.
    destruct (entries_show t IHt _ _ _ _ _ _ (proj1 W) (proj1 W') E1) as [Q S]. apply rt_inj in E2. cbn [quiet]. fold (qentries es) (qentries es0). rewrite Q, E2.
    split; [reflexivity|]. apply Ag; [|exact S]. intros _. injection E3 as E3. lia.
Qed.

(** ** And nothing else *)

Definition DQ (v : val) : Prop := forall a h, dbg_of a h (quiet v) = dbg_of a h v.
Lemma rt_quiet r : rt_dbg (quiet_rt r) = rt_dbg r. Proof. reflexivity. Qed.
Lemma own_quiet c n r : own_dbg c n (option_map quiet_rt r) = own_dbg c n r. Proof. now destruct r. Qed.
Lemma items_quiet l : Forall (fun s => DQ (snd s)) (map islot l) -> forall a h i, dbg_items a h i (map quiet l) = dbg_items a h i l.
Proof. induction l as [|x l IH]; intros F a h i; [reflexivity|]. inversion F as [|? ? Hx F' E1]; subst. cbn [map dbg_items]. specialize (Hx (i :: a) h). cbn [snd islot] in Hx. now rewrite Hx, IH. Qed.
Lemma fields_quiet l : Forall (fun s => DQ (snd s)) (map fslot l) -> forall a h i, dbg_fields a h i (qfields l) = dbg_fields a h i l.
Proof. induction l as [|[fi x] l IH]; intros F a h i; [reflexivity|]. inversion F as [|? ? Hx F' E1]; subst. cbn [map dbg_fields qfields]. specialize (Hx (i :: a) h). cbn [snd fslot] in Hx. rewrite Hx. fold (qfields l). now rewrite IH. Qed.
Lemma entries_quiet l : Forall (fun s => DQ (snd s)) (map mslot l) -> forall a h i, dbg_entries a h i (qentries l) = dbg_entries a h i l.
Proof. induction l as [|[fi x] l IH]; intros F a h i; [reflexivity|]. inversion F as [|? ? Hx F' E1]; subst. cbn [map dbg_entries qentries]. specialize (Hx (i :: a) h). cbn [snd mslot] in Hx. rewrite Hx. fold (qentries l). now rewrite IH. Qed.
Lemma hash_quiet l : Forall (fun s => DQ (snd s)) (flat_map hslots l) -> forall a h i, dbg_hash a h i (qhash l) = dbg_hash a h i l.
Proof.
  induction l as [|[k x] l IH]; intros F a h i; [reflexivity|]. cbn [flat_map hslots app fst snd] in F. inversion F as [|? ? Hk F1 E1]; subst. inversion F1 as [|? ? Hx F2 E2]; subst.
  cbn [map dbg_hash qhash]. specialize (Hk (i :: a) h). specialize (Hx (S i :: a) h). cbn [snd islot] in Hx, Hk. rewrite Hk, Hx. fold (qhash l). now rewrite IH.
Qed.
Lemma dbg_quiet v : DQ v.
Proof.
  induction v using val_slots_ind; [intros a h; destruct v; try discriminate; reflexivity|exact IHv|]. intros a h.
  destruct v as [| | | |[x|]|l|l|l|l| |c r fs|tag c r fs|r l|r es]; try discriminate; cbn [quiet slots] in *; try reflexivity.
  - inversion H0 as [|? ? Hx _ E]; subst. cbn [dbg_of]. f_equal. apply Hx.
  - rewrite !dg_vec, items_quiet by exact H0. reflexivity.
  - rewrite !dg_arr, items_quiet by exact H0. reflexivity.
  - rewrite !dg_tup, items_quiet by exact H0. reflexivity.
  - fold (qhash l). rewrite !dg_hash, hash_quiet by exact H0. reflexivity.
  - fold (qfields fs). rewrite !dg_struct, fields_quiet, own_quiet by exact H0. reflexivity.
  - fold (qfields fs). rewrite !dg_enum, fields_quiet, own_quiet by exact H0. reflexivity.
  - rewrite !dg_list, items_quiet by exact H0. reflexivity.
  - fold (qentries es). rewrite !dg_map, entries_quiet by exact H0. reflexivity.
Qed.

Definition DA (v : val) : Prop := forall a h h', agree a v h h' -> dbg_of a h v = dbg_of a h' v.
Lemma items_agree_dbg l : Forall (fun s => DA (snd s)) (map islot l) -> forall a h h' i, slots_agree a i (map islot l) h h' -> dbg_items a h i l = dbg_items a h' i l.
Proof.
  induction l as [|x l IH]; intros F a h h' i A; [reflexivity|]. inversion F as [|? ? Hx F' E1]; subst. cbn [map] in A. apply slots_agree_cons in A. destruct A as [Ax A].
  cbn [dbg_items]. specialize (Hx _ _ _ Ax). cbn [snd islot] in Hx. now rewrite Hx, (IH F' _ _ _ _ A).
Qed.
Lemma fields_agree_dbg l : Forall (fun s => DA (snd s)) (map fslot l) -> forall a h h' i, slots_agree a i (map fslot l) h h' -> dbg_fields a h i l = dbg_fields a h' i l.
Proof.
  induction l as [|[fi x] l IH]; intros F a h h' i A; [reflexivity|]. inversion F as [|? ? Hx F' E1]; subst. cbn [map] in A. apply slots_agree_cons in A. destruct A as [Ax A].
  cbn [dbg_fields]. specialize (Hx _ _ _ Ax). cbn [snd fslot] in Hx. now rewrite Hx, (IH F' _ _ _ _ A).
Qed.
Lemma entries_agree_dbg l : Forall (fun s => DA (snd s)) (map mslot l) -> forall a h h' i, slots_agree a i (map mslot l) h h' -> dbg_entries a h i l = dbg_entries a h' i l.
Proof.
  induction l as [|[fi x] l IH]; intros F a h h' i A; [reflexivity|]. inversion F as [|? ? Hx F' E1]; subst. cbn [map] in A. apply slots_agree_cons in A. destruct A as [Ax A].
  cbn [dbg_entries]. specialize (Hx _ _ _ Ax). cbn [snd mslot] in Hx. now rewrite Hx, (IH F' _ _ _ _ A).
Qed.
Lemma hash_agree_dbg l : Forall (fun s => DA (snd s)) (flat_map hslots l) -> forall a h h' i, slots_agree a i (flat_map hslots l) h h' -> dbg_hash a h i l = dbg_hash a h' i l.
Proof.
  induction l as [|[k x] l IH]; intros F a h h' i A; [reflexivity|]. cbn [flat_map hslots app fst snd] in *. inversion F as [|? ? Hk F1 E1]; subst. inversion F1 as [|? ? Hx F2 E2]; subst.
  apply slots_agree_cons in A. destruct A as [Ak A]. apply slots_agree_cons in A. destruct A as [Ax A].
  cbn [dbg_hash]. specialize (Hk _ _ _ Ak). specialize (Hx _ _ _ Ax). cbn [snd islot] in Hx, Hk. now rewrite Hk, Hx, (IH F2 _ _ _ _ A).
Qed.
Lemma dbg_agree v : DA v.
Proof.
  assert (Ow : forall a v h h' (c : bool) r, agree a v h h' -> has_cache v = c -> own_dbg c (h a) r = own_dbg c (h' a) r).
  { intros a v0 h h' c r A C. destruct c; [|reflexivity]. now rewrite (A a v0 (at_here a v0) C). }
  induction v using val_slots_ind; intros a h h' A.
  - destruct v; try discriminate; reflexivity.
  - apply IHv. intros b y At. apply A. now constructor.
  - pose proof (agree_slots _ _ _ _ A) as As.
    destruct v as [| | | |[x|]|l|l|l|l| |c r fs|tag c r fs|r l|r es]; try discriminate; cbn [slots] in *; try reflexivity.
    + inversion H0 as [|? ? Hx _ E]; subst. apply slots_agree_cons in As. cbn [dbg_of]. f_equal. exact (Hx _ _ _ (proj1 As)).
    + rewrite !dg_vec, (items_agree_dbg l H0 _ _ _ _ As). reflexivity.
    + rewrite !dg_arr, (items_agree_dbg l H0 _ _ _ _ As). reflexivity.
    + rewrite !dg_tup, (items_agree_dbg l H0 _ _ _ _ As). reflexivity.
    + rewrite !dg_hash, (hash_agree_dbg l H0 _ _ _ _ As). reflexivity.
    + rewrite !dg_struct, (fields_agree_dbg fs H0 _ _ _ _ As), (Ow a _ h h' c r A eq_refl). reflexivity.
    + rewrite !dg_enum, (fields_agree_dbg fs H0 _ _ _ _ As), (Ow a _ h h' c r A eq_refl). reflexivity.
    + rewrite !dg_list, (items_agree_dbg l H0 _ _ _ _ As), (A a _ (at_here a _) eq_refl). reflexivity.
    + rewrite !dg_map, (entries_agree_dbg es H0 _ _ _ _ As), (A a _ (at_here a _) eq_refl). reflexivity.
Qed.

(** ** Equality and bytes *)

Definition NQ (v : val) : Prop := forall r, norm r (quiet v) = norm r v.
Lemma norm_quiet v : NQ v.
Proof.
  induction v using val_slots_ind; intros r0.
  - destruct v; try discriminate; reflexivity.
  - cbn [quiet norm]. f_equal. apply IHv.
  - destruct v as [| | | |[x|]|l|l|l|l| |c r fs|tag c r fs|r l|r es]; try discriminate; cbn [quiet slots norm] in *; try reflexivity.
    + inversion H0 as [|? ? Hx _ E]; subst. do 2 f_equal. apply Hx.
    + f_equal. induction l as [|x l IH]; [reflexivity|]. inversion H0 as [|? ? Hx F E]; subst. cbn [map]. f_equal; [apply Hx|now apply IH].
    + f_equal. induction l as [|x l IH]; [reflexivity|]. inversion H0 as [|? ? Hx F E]; subst. cbn [map]. f_equal; [apply Hx|now apply IH].
    + f_equal. induction l as [|x l IH]; [reflexivity|]. inversion H0 as [|? ? Hx F E]; subst. cbn [map]. f_equal; [apply Hx|now apply IH].
    + f_equal. induction l as [|[k x] l IH]; [reflexivity|]. cbn [flat_map hslots app] in H0. inversion H0 as [|? ? Hk F E]; subst. inversion F as [|? ? Hx F' E']; subst.
      cbn [map]. f_equal; [f_equal; [apply Hk|apply Hx]|now apply IH].
    + f_equal; [now destruct r|]. clear H. induction fs as [|[fi x] fs IH]; [reflexivity|]. inversion H0 as [|? ? Hx F E]; subst. cbn [map]. f_equal; [f_equal; apply Hx|now apply IH].
    + f_equal; [now destruct r|]. clear H. induction fs as [|[fi x] fs IH]; [reflexivity|]. inversion H0 as [|? ? Hx F E]; subst. cbn [map]. f_equal; [f_equal; apply Hx|now apply IH].
    + f_equal. generalize 0. induction l as [|x l IH]; intros i; [reflexivity|]. inversion H0 as [|? ? Hx F E]; subst. cbn [map]. f_equal; [apply Hx|now apply IH].
    + f_equal. induction es as [|[k x] es IH]; [reflexivity|]. inversion H0 as [|? ? Hx F E]; subst. cbn [map]. f_equal; [f_equal; apply Hx|now apply IH].
Qed.

(** ** C95 *)

(** Two values of one type show the same exactly if they have the same contents, paths and size caches: everything but the logger. *)
Theorem c95_shows : forall t v v' a h h', wt t v = true -> wt t v' = true ->
  (dbg_of a h v = dbg_of a h' v' <-> quiet v = quiet v' /\ forall b y, at_addr a v b y -> has_cache y = true -> h b = h' b).
Proof.
  intros t v v' a h h' W W'. split; [now apply (dbg_shows t)|]. intros [Q A]. rewrite (dbg_agree v a h h' A). rewrite <- (dbg_quiet v), Q. apply dbg_quiet.
Qed.
Print Assumptions c95_shows.
(** Then they are equal and have the same bytes. *)
Theorem c95_equal : forall t v v' a h h', wt t v = true -> wt t v' = true -> dbg_of a h v = dbg_of a h' v' -> veqb v v' = true /\ enc v = enc v'.
Proof.
  intros t v v' a h h' W W' E. apply (c95_shows t) in E; [|exact W|exact W']. destruct E as [Q _].
  assert (Nm : norm rt_default v = norm rt_default v') by now rewrite <- (norm_quiet v), Q, norm_quiet. split; [now apply (norm_veqb t)|].
  rewrite <- (enc_norm v rt_default), Nm. apply enc_norm.
Qed.
Print Assumptions c95_equal.

Lemma path_own a h fs c n r : forall i, path_in (dbg_fields a h i fs ++ own_dbg c n (Some r)) = Some (collect_values (rt_path r)).
Proof.
  assert (Nb : forall l, numbers_shown (map (fun n => GRec HChild [(DValue, GInt (Z.of_N n))]) l) = Some l).
  { induction l as [|k l IH]; [reflexivity|]. cbn [map numbers_shown number_shown]. now rewrite IH, N2Z.id. }
  induction fs as [|[fi x] fs IH]; intros i; [|apply IH]. unfold own_dbg, rt_dbg. rewrite c95_path. destruct c; cbn [dbg_fields app path_in]; apply Nb.
Qed.
Lemma path_of_rt v r a h : val_rt v = Ok r -> path_shown (dbg_of a h v) = Some (collect_values (rt_path r)).
Proof.
  induction v; intros E; try discriminate E.
  - exact (IHv E).
  - destruct r0 as [q|]; [|discriminate E]. injection E as ->. rewrite dg_struct. apply path_own.
  - destruct r0 as [q|]; [|discriminate E]. injection E as ->. rewrite dg_enum. apply path_own.
  - injection E as ->. rewrite dg_list. exact (path_own a h [] true (h a) r 0).
  - injection E as ->. rewrite dg_map. exact (path_own a h [] true (h a) r 0).
Qed.
(** In a tree that has a runtime, whatever has one shows the path at which its changes are logged. *)
Theorem c95_where : forall r t v steps t' x p a h, placed r t v -> walk t v steps = Some (t', x, p) -> prim_under t' = false ->
  path_shown (dbg_of a h x) = Some (collect_values (rt_path r) ++ p ++ own x).
Proof. intros r t v steps t' x p a h P K N. rewrite (path_of_rt _ _ a h (P steps t' x p K N)). f_equal. apply collect_at. Qed.
Print Assumptions c95_where.

(** Equal values may show different things: where they are and the sizes they were last asked for. *)
Theorem c95_equal_refuted : forall m, exists t v v' bs g, ty_ok t = true /\ wt t v = true /\ wt t v' = true /\ veqb v v' = true /\
  dbg_of [] fresh_store v <> dbg_of [] fresh_store v' /\ steit_serialize m v fresh_store = Ok (bs, g) /\ dbg_of [] fresh_store v <> dbg_of [] g v.
Proof.
  intros m. assert (W : wt (TList TBool) (VList (mkRt 3 Root) [VBool true]) = true) by reflexivity.
  destruct (steit_serialize_spec (VList (mkRt 3 Root) [VBool true]) (wt_ser_ok (TList TBool) _ eq_refl W eq_refl) eq_refl m fresh_store) as (g & E & A & _).
  exists (TList TBool), (VList (mkRt 3 Root) [VBool true]), (VList (nested (mkRt 3 Root) 1) [VBool true]), (enc (VList (mkRt 3 Root) [VBool true])), g.
  do 4 (split; [reflexivity|]). split; [|split; [exact E|]].
  - intros X. apply (c95_shows (TList TBool)) in X; [|reflexivity|reflexivity]. destruct X as [X _]. discriminate X.
  - intros X. apply (c95_shows (TList TBool)) in X; [|reflexivity|reflexivity]. destruct X as [_ X]. specialize (X [] _ (at_here [] _) eq_refl).
    rewrite (A [] _ (at_here [] _) eq_refl) in X. discriminate X.
Qed.
Print Assumptions c95_equal_refuted.

(** A struct at path 4 of a tree, with a list, a map and a string. *)
Example c95_case :
  dbg_of [] (fun a => N.of_nat (length a)) (VStruct true (Some (nested ex_rt 4))
    [(fst_ 0, VList (nested (nested ex_rt 4) 0) [VInt U8 7]); (fst_ 1, VMap (nested (nested ex_rt 4) 1) [(3, VBool true)]); (fns 2, VOpt (Some (VStr [104; 105])))])
  = GRec HStruct
      [(DField 0, GRec HList [(DItems, GSeq [GInt 7]); (DCache, GRec HSizeCache [(DSize, GInt 1)]);
         (DRuntime, GRec HRuntime [(DLogger, GStr [60; 108; 111; 103; 103; 101; 114; 62]);
           (DPath, GSeq [GRec HRoot []; GRec HChild [(DValue, GInt 4)]; GRec HChild [(DValue, GInt 0)]])])]);
       (DField 1, GRec HMap [(DEntries, GAssoc [(GInt 3, GBool true)]); (DCache, GRec HSizeCache [(DSize, GInt 1)]);
         (DRuntime, GRec HRuntime [(DLogger, GStr [60; 108; 111; 103; 103; 101; 114; 62]);
           (DPath, GSeq [GRec HRoot []; GRec HChild [(DValue, GInt 4)]; GRec HChild [(DValue, GInt 1)]])]); (DMarker, GMarker)]);
       (DField 2, GSome (GStr [104; 105])); (DCache, GRec HSizeCache [(DSize, GInt 0)]);
       (DRuntime, GRec HRuntime [(DLogger, GStr [60; 108; 111; 103; 103; 101; 114; 62]); (DPath, GSeq [GRec HRoot []; GRec HChild [(DValue, GInt 4)]])])].
Proof. reflexivity. Qed.
