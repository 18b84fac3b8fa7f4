(** List and Map as a sequence and as a finite map (C24, C25): the property theorems. *)
From Verif Require Import Base Varint WireFmt Utf8 Types Ser Spec De Log State StateSpec Coll ValInd VarintProofs WireProofs SerProofs TypeProofs
  EqProofs DeProofs RoundTrip MergeProofs NormProofs LogProofs TreeProofs CohProofs HandleProofs OpProofs ExecProofs ReplayProofs FrameProofs KeepProofs
  Examples PropLog PropReplay PropState.

(** ** C24 *)

(** A value without the runtimes in it. *)
Definition plain (v : val) : val := norm rt_default v.
Definition plain_ret (x : oret) : oret := match x with ROpt (Some v) => ROpt (Some (plain v)) | _ => x end.

(** What the calls do to a mathematical sequence, what they return, and what they log when the
    list sits at path [p].  Counting from 0, after [swap_remove(i)] position [j] holds what was last
    if [j = i], and what it held before if not. *)
Inductive lop := LPush (x : val) | LPop | LSwapRemove (i : N).
Definition seq_op (p : list N) (o : lop) (l : list val) : list val * oret * list entry :=
  match o with
  | LPush x => (l ++ [x], RIndex (lenN l), [EListPush p (enc x)])
  | LPop => match l with
            | [] => ([], ROpt None, [])
            | x :: _ => (removelast l, ROpt (Some (last l x)), [EListPop p])
            end
  | LSwapRemove i =>
      let j := N.to_nat i in
      match nth_error l j with
      | None => (l, ROpt None, [])
      | Some x =>
          let n := pred (length l) in
          (map (fun k => if Nat.eqb k j then last l x else nth k l x) (seq 0 n), ROpt (Some x),
           EListPop p :: if Nat.eqb j n then [] else [EUpdate (p ++ [i]) (enc (last l x))])
      end
  end.
Fixpoint seq_run (p : list N) (os : list lop) (l : list val) : list val * list oret * list entry :=
  match os with
  | [] => (l, [], [])
  | o :: os' => let '(l', x, es) := seq_op p o l in let '(l'', xs, es') := seq_run p os' l' in (l'', x :: xs, es ++ es')
  end.

Definition plain_lop (o : lop) : lop := match o with LPush x => LPush (plain x) | _ => o end.
Definition list_call (o : lop) : op := match o with LPush x => OPush x | LPop => OPop | LSwapRemove i => OSwapRemove i end.
Definition lop_ok (t : ty) (o : lop) : Prop := match o with LPush x => arg_ok t x | _ => True end.

(** What the calls need of the items: they can be written, and [sibling] works on their runtime. *)
Definition item_ok (t : ty) (x : val) : Prop := arg_ok t x /\ (vwty x = Sized -> exists q n, val_rt x = Ok (nested q n)).

Lemma below_at q n p : exists q' n', rt_at (nested q n) p = nested q' n'.
Proof. revert q n. induction p as [|k p IH]; intros q n; [eexists _, _; reflexivity|]. apply IH. Qed.
Lemma item_ok_set t x q n : state_ty t = true -> arg_ok t x -> item_ok t (set_rt (nested q n) x).
Proof.
  intros S A. split; [now apply arg_set|]. intros V. destruct A as (W & _).
  assert (P : prim_under t = false).
  { assert (W' : wt t (set_rt (nested q n) x) = true) by now apply wt_set_rt. rewrite (wt_vwty t _ W') in V. clear -V S. induction t; try discriminate V; try discriminate S; try reflexivity. now apply IHt. }
  rewrite (coh_val_rt t _ (nested q n) S P); [|now apply wt_set_rt|apply coh_set].
  destruct (below_at q n (own (set_rt (nested q n) x))) as (q' & n' & ->). eauto.
Qed.
Lemma plain_set r x : plain (set_rt r x) = plain x.
Proof. apply norm_set_rt. Qed.
Lemma nth_map_error {A B} (f : A -> B) l i : nth_error (map f l) i = match nth_error l i with Some x => Some (f x) | None => None end.
Proof. revert l. induction i; intros [|a l]; cbn; auto. Qed.
Lemma last_snoc {A} (l : list A) z d : last (l ++ [z]) d = z.
Proof. induction l as [|a l IH]; [reflexivity|]. cbn. rewrite IH. now destruct l. Qed.
Lemma list_ext {A} (a b : list A) : (forall i, nth_error a i = nth_error b i) -> a = b.
Proof.
  revert b. induction a as [|x a IH]; intros [|y b] H; [reflexivity|specialize (H O); discriminate H|specialize (H O); discriminate H|].
  pose proof (H O) as H0. cbn in H0. injection H0 as ->. f_equal. apply IH. intros i. exact (H (S i)).
Qed.
Lemma nth_error_seq n : forall a i, nth_error (seq a n) i = if Nat.ltb i n then Some (a + i)%nat else None.
Proof.
  induction n as [|n IH]; intros a [|i]; cbn [seq nth_error]; try reflexivity; [now rewrite Nat.add_0_r|]. rewrite IH.
  replace (Nat.ltb (S i) (S n)) with (Nat.ltb i n) by reflexivity. destruct (Nat.ltb i n); [f_equal; lia|reflexivity].
Qed.
Lemma swap_shape (l : list val) z j x : nth_error l j = Some x ->
  map (fun k => if Nat.eqb k j then last (l ++ [z]) x else nth k (l ++ [z]) x) (seq 0 (pred (length (l ++ [z])))) = set_nth l j z.
Proof.
  intros Nx. assert (Hj : (j < length l)%nat) by (apply nth_error_Some; congruence). rewrite last_snoc, app_length. cbn [length]. replace (pred (length l + 1)) with (length l) by lia.
  apply list_ext. intros i. rewrite nth_map_error, nth_error_seq, Nat.add_0_l. destruct (Nat.ltb i (length l)) eqn:E.
  - apply Nat.ltb_lt in E. destruct (Nat.eqb i j) eqn:Ej.
    + apply Nat.eqb_eq in Ej. subst. symmetry. apply (nth_set_same l j z x Nx).
    + apply Nat.eqb_neq in Ej. rewrite app_nth1 by exact E. clear -E Ej.
      revert i j E Ej. induction l as [|a l IH]; intros [|i] [|j] E Ej; cbn in *; try lia; try reflexivity.
      * symmetry. rewrite <- (nth_error_nth' l x) by lia. reflexivity.
      * apply IH; lia.
  - apply Nat.ltb_ge in E. symmetry. apply nth_error_None. clear -E Hj. assert (L : length (set_nth l j z) = length l); [|lia].
    clear. revert j. induction l as [|a l IH]; intros [|j]; cbn; auto.
Qed.
Lemma swap_shape_last (l : list val) z : map (fun k => if Nat.eqb k (length l) then z else nth k (l ++ [z]) z) (seq 0 (length l)) = l.
Proof.
  apply list_ext. intros i. rewrite nth_map_error, nth_error_seq, Nat.add_0_l. destruct (Nat.ltb i (length l)) eqn:E.
  - apply Nat.ltb_lt in E. replace (Nat.eqb i (length l)) with false by (symmetry; apply Nat.eqb_neq; lia). rewrite app_nth1 by exact E. symmetry. now apply nth_error_nth'.
  - apply Nat.ltb_ge in E. symmetry. now apply nth_error_None.
Qed.
Lemma map_set_nth {A B} (f : A -> B) l : forall i x, map f (set_nth l i x) = set_nth (map f l) i (f x).
Proof. induction l as [|a l IH]; intros [|i] x; cbn; try reflexivity. now rewrite IH. Qed.
Lemma set_nth_Forall {A} (P : A -> Prop) (l : list A) : forall i x, P x -> Forall P l -> Forall P (set_nth l i x).
Proof. induction l as [|a l IH]; intros [|i] x Px F; cbn; inversion F; subst; try constructor; auto. Qed.
Lemma enc_plain x : enc (plain x) = enc x.
Proof. apply enc_norm. Qed.

Lemma list_step m h t r l o : ty_ok (TList t) = true -> Forall (item_ok t) l -> lop_ok t o ->
  exists l' evs ret es, apply_op m h (TList t) (list_call o) (VList r l) = (VList r l', (evs, Ok ret)) /\ Forall (item_ok t) l' /\
    logs m (rt_log r) evs es /\ (map plain l', plain_ret ret, es) = seq_op (collect_values (rt_path r)) (plain_lop o) (map plain l).
Proof.
  intros O F K. cbn [ty_ok] in O. apply andb_true_iff in O. destruct O as [O S].
  assert (Lm : lenN (map plain l) = lenN l) by (unfold lenN; now rewrite map_length).
  assert (P : forall l z, Forall (item_ok t) (l ++ [z]) -> exists l' evs ret es, list_pop r (l ++ [z]) = (VList r l', (evs, Ok ret)) /\
    Forall (item_ok t) l' /\ logs m (rt_log r) evs es /\ l' = l /\ ret = ROpt (Some z) /\ es = [EListPop (collect_values (rt_path r))]).
  { intros l0 z F0. unfold list_pop. rewrite rev_app_distr. cbn [rev app rt_log_entry mlift mbind mtry mret]. rewrite removelast_last.
    apply Forall_app in F0. destruct F0 as [F0 _]. do 4 eexists. split; [reflexivity|]. split; [exact F0|]. split; [apply logs_one|]. auto. }
  destruct o as [x| |i]; cbn [list_call apply_op plain_lop seq_op lop_ok] in *.
  - exists (l ++ [set_rt (nested r (lenN l)) x]). unfold list_push_with.
    rewrite (call_paused_spec r (lenN l) _ [] (set_rt (nested r (lenN l)) x) eq_refl). cbn [mtry]. unfold rt_log_entry, entry_list_push.
    rewrite (arg_bytes m t _ h O (arg_set t x _ K)). cbn [bind mlift mbind mtry mret]. do 3 eexists. split; [reflexivity|].
    split; [|split].
    + apply Forall_app. split; [exact F|]. constructor; [now apply item_ok_set|constructor].
    + eapply (logs_app m (rt_log r) [_; _] _ [] [_]); [apply (logs_paused m (rt_log r) []); reflexivity|]. cbn [app]. apply logs_one.
    + rewrite map_app, Lm, enc_set_rt. cbn [map plain_ret]. now rewrite plain_set, enc_plain.
  - destruct l as [|z l _] using rev_ind.
    + exists [], [], (ROpt None), []. split; [reflexivity|]. split; [constructor|]. split; [apply logs_nil|reflexivity].
    + destruct (P l z F) as (l' & evs & ret & es & E & F' & L & -> & -> & ->). exists l, evs, (ROpt (Some z)), [EListPop (collect_values (rt_path r))].
      split; [exact E|]. split; [exact F'|]. split; [exact L|]. rewrite map_app. cbn [map plain_ret].
      destruct (map plain l ++ [plain z]) as [|a b] eqn:X; [now destruct l|]. rewrite <- X, removelast_last, last_snoc. reflexivity.
  - rewrite nth_map_error. destruct (nth_error l (N.to_nat i)) as [removed|] eqn:Nr.
    2: { apply nth_error_None in Nr. exists l, [], (ROpt None), []. split; [|split; [exact F|split; [apply logs_nil|reflexivity]]].
         unfold list_swap_remove. replace (lenN l <=? i) with true; [reflexivity|]. symmetry. unfold lenN. lia. }
    destruct l as [|z l _] using rev_ind; [destruct (N.to_nat i); discriminate Nr|].
    assert (Hi : (N.to_nat i < length (l ++ [z]))%nat) by (apply nth_error_Some; congruence). rewrite app_length in Hi. cbn [length] in Hi.
    assert (Hl : lenN (l ++ [z]) = lenN l + 1) by (unfold lenN; rewrite app_length; cbn; lia).
    unfold list_swap_remove. rewrite Hl. destruct (lenN l + 1 <=? i) eqn:X; [unfold lenN in X; lia|].
    rewrite map_app. cbn [map]. rewrite last_snoc, app_length. cbn [length]. replace (pred (length (map plain l) + 1)) with (length (map plain l)) by lia.
    destruct (i =? lenN l + 1 - 1) eqn:Y.
    + assert (Ei : N.to_nat i = length l) by (unfold lenN in *; lia). rewrite Ei in Nr. rewrite nth_error_app2, Nat.sub_diag in Nr by lia. injection Nr as <-.
      destruct (P l z F) as (l' & evs & ret & es & E & F' & L & -> & -> & ->). exists l, evs, (ROpt (Some z)), [EListPop (collect_values (rt_path r))].
      split; [exact E|]. split; [exact F'|]. split; [exact L|]. rewrite Ei, map_length, Nat.eqb_refl. cbn [plain_ret]. f_equal. f_equal.
      rewrite <- (map_length plain l). now rewrite swap_shape_last.
    + assert (Hi' : (N.to_nat i < length l)%nat) by (unfold lenN in *; lia). rewrite nth_error_app1 in Nr by exact Hi'.
      rewrite nth_error_app1, Nr, rev_app_distr by exact Hi'. cbn [rev app].
      pose proof F as F0. apply Forall_app in F0. destruct F0 as [Fl Fz]. inversion Fz as [|? ? [Az Rz] _]; subst.
      assert (Ir : item_ok t removed) by (rewrite Forall_forall in Fl; apply Fl; now apply nth_error_In in Nr). destruct Ir as [Ar Rr].
      unfold entry_update_child, entry_update. rewrite (arg_bytes m t z h O Az). cbn [bind mlift mbind mtry]. rewrite swap_remove_set by exact Hi'.
      assert (Ls : logs m (rt_log r) [LLog (rt_log r) (entry_list_pop r); LLog (rt_log r) (EUpdate (collect_values (rt_path (nested r i))) (enc z))]
        [EListPop (collect_values (rt_path r)); EUpdate (collect_values (rt_path r) ++ [i]) (enc z)]).
      { apply (logs_app m (rt_log r) [_] [_] [_] [_]); [apply logs_one|]. change (nested r i) with (rt_at r [i]). rewrite collect_at. apply logs_one. }
      assert (Ni : Nat.eqb (N.to_nat i) (length (map plain l)) = false) by (apply Nat.eqb_neq; rewrite map_length; lia).
      assert (Sh : map (fun k => if Nat.eqb k (N.to_nat i) then plain z else nth k (map plain l ++ [plain z]) (plain removed)) (seq 0 (length (map plain l))) =
                   set_nth (map plain l) (N.to_nat i) (plain z)).
      { rewrite <- (swap_shape (map plain l) (plain z) (N.to_nat i) (plain removed)) by now rewrite nth_map_error, Nr.
        rewrite last_snoc, app_length. cbn [length]. now replace (pred (length (map plain l) + 1)) with (length (map plain l)) by lia. }
      rewrite Ni, Sh, enc_plain. destruct (vwty z) eqn:Vz.
      * do 4 eexists. split; [cbn [mret]; rewrite app_nil_r; reflexivity|]. split; [apply set_nth_Forall; [split; [exact Az|congruence]|exact Fl]|]. split; [exact Ls|]. now rewrite map_set_nth.
      * assert (Vr : vwty removed = Sized).
        { destruct Az as (Wz & _), Ar as (Wr & _). rewrite (wt_vwty t _ Wr), <- (wt_vwty t _ Wz). exact Vz. }
        destruct (Rr Vr) as (q & n & Er). rewrite Er. cbn [bind]. replace (rt_sibling (nested q n) i) with (Ok (nested q i)) by now destruct q.
        cbn [mtry mlift mret]. do 4 eexists. split; [rewrite set_set; reflexivity|]. split; [apply set_nth_Forall; [now apply item_ok_set|exact Fl]|].
        split; [rewrite app_nil_r; exact Ls|]. now rewrite map_set_nth, plain_set.
Qed.

(** [os] pairs each call with what is in the size caches when it is made. *)
Theorem c24_sequence : forall m t r l (os : list (lop * store)), ty_ok (TList t) = true -> Forall (arg_ok t) l ->
  placed r (TList t) (VList r l) -> Forall (fun o => lop_ok t (fst o)) os ->
  let '(l', rets', es) := seq_run (collect_values (rt_path r)) (map (fun o => plain_lop (fst o)) os) (map plain l) in
  exists v' evs rets,
    exec m (TList t) (VList r l) (map (fun o => mkCall [] (snd o) (list_call (fst o))) os) = (v', (evs, Ok rets)) /\
    map plain (list_iter v') = l' /\ list_len v' = lenN l' /\
    (forall i, match list_get v' i with Some x => Some (plain x) | None => None end = nth_error l' (N.to_nat i)) /\
    map plain_ret rets = rets' /\ forall b, feeds m (rt_log r) (mkRL b 0) evs = Ok (mkRL (b ++ bufd es) 0).
Proof.
  intros m t r l os O A Pl Ko. assert (W : wt (TList t) (VList r l) = true) by (cbn [wt]; rewrite forallb_forall; rewrite Forall_forall in A; intros x I; now apply A).
  apply placed_coh in Pl; try assumption; try reflexivity. apply coh_list in Pl. destruct Pl as [_ C].
  assert (F : Forall (item_ok t) l).
  { apply Forall_forall. intros x I. apply In_nth_error in I. destruct I as [j Nj]. pose proof (set_items_nth _ _ _ _ _ C Nj) as E. rewrite <- E. apply item_ok_set.
    - cbn [ty_ok] in O. now apply andb_true_iff in O.
    - rewrite Forall_forall in A. apply A. now apply nth_error_In in Nj. }
  clear W C A. enough (G : exists l' evs rets es,
    exec m (TList t) (VList r l) (map (fun o => mkCall [] (snd o) (list_call (fst o))) os) = (VList r l', (evs, Ok rets)) /\
    seq_run (collect_values (rt_path r)) (map (fun o => plain_lop (fst o)) os) (map plain l) = (map plain l', map plain_ret rets, es) /\ logs m (rt_log r) evs es).
  { destruct G as (l' & evs & rets & es & E & R & L). rewrite R. exists (VList r l'), evs, rets. split; [exact E|].
    split; [reflexivity|]. split; [unfold list_len, lenN; now rewrite map_length|]. split; [intros i; cbn [list_get]; now rewrite nth_map_error|]. split; [reflexivity|exact L]. }
  revert l F. induction Ko as [|[o h] os K _ IH]; intros l F.
  - exists l, [], [], []. split; [reflexivity|]. split; [reflexivity|apply logs_nil].
  - cbn [map exec c_at c_caches c_op at_node fst snd] in *.
    destruct (list_step m h t r l o O F K) as (l1 & evs1 & ret1 & es1 & E1 & F1 & L1 & R1). rewrite E1. cbn [mtry].
    destruct (IH l1 F1) as (l2 & evs2 & rets2 & es2 & E2 & R2 & L2). rewrite E2. cbn [mbind mret]. cbn [seq_run map]. rewrite <- R1, R2.
    do 4 eexists. split; [reflexivity|]. split; [reflexivity|]. rewrite app_nil_r. now apply logs_app.
Qed.
Print Assumptions c24_sequence.
(** [collect] keeps contents and order. *)
Theorem c24_collect : forall r l, map plain (list_iter (list_from_iter r l)) = map plain l /\ list_len (list_from_iter r l) = lenN l.
Proof.
  intros r l. unfold list_from_iter. rewrite set_list. cbn [list_iter list_len].
  assert (G : forall l i, map plain (set_items r i l) = map plain l).
  { clear. induction l as [|x l IH]; intros i; [reflexivity|]. cbn. now rewrite plain_set, IH. }
  split; [apply G|]. unfold lenN. now rewrite <- (map_length plain), G, map_length.
Qed.
Print Assumptions c24_collect.
(** [push_with] stores what the callback returns. *)
Theorem c24_push_with : forall m h t r l f evs x, ty_ok (TList t) = true -> f (nested r (lenN l)) = (evs, Ok x) -> quiet m (rt_log r) evs -> arg_ok t x ->
  exists evs', apply_op m h (TList t) (OPushWith f) (VList r l) = (VList r (l ++ [x]), (evs', Ok (RIndex (lenN l)))) /\
    forall b, feeds m (rt_log r) (mkRL b 0) evs' = Ok (mkRL (b ++ bufd [EListPush (collect_values (rt_path r)) (enc x)]) 0).
Proof.
  intros m h t r l f evs x O Ef Q A. cbn [ty_ok] in O. apply andb_true_iff in O. destruct O as [O S]. cbn [apply_op]. unfold list_push_with.
  rewrite (call_paused_spec r (lenN l) f evs x Ef). cbn [mtry]. unfold rt_log_entry, entry_list_push. rewrite (arg_bytes m t x h O A). cbn [bind mlift mbind mtry mret].
  eexists. split; [reflexivity|]. apply (logs_app m (rt_log r) (LPause (rt_log r) :: evs ++ [LUnpause (rt_log r)]) _ [] [_]); [now apply logs_paused|]. apply logs_one.
Qed.
Print Assumptions c24_push_with.
Example c24_case :
  seq_run [7] (map plain_lop [LPush (VInt I32 1); LPush (VInt I32 2); LPush (VInt I32 3); LSwapRemove 0; LSwapRemove 5; LPop; LPop; LPop]) [] =
    ([], [RIndex 0; RIndex 1; RIndex 2; ROpt (Some (VInt I32 1)); ROpt None; ROpt (Some (VInt I32 2)); ROpt (Some (VInt I32 3)); ROpt None],
     [EListPush [7] [2]; EListPush [7] [4]; EListPush [7] [6]; EListPop [7]; EUpdate [7; 0] [6]; EListPop [7]; EListPop [7]]) /\
  fst (exec Debug (TList (TInt I32)) (VList (nested ex_rt 7) []) (map (fun o => mkCall [] junk (list_call o)) [LPush (VInt I32 1); LPush (VInt I32 2); LPush (VInt I32 3); LSwapRemove 0])) =
    VList (nested ex_rt 7) [VInt I32 3; VInt I32 2].
Proof. vm_compute. auto. Qed.

(** ** C25 *)

(** What the calls do to a finite map with an order on its keys, what they return and log. *)
Inductive mop := MInsert (k : N) (x : val) | MRemove (k : N).
Definition upd (g : N -> option val) (k : N) (o : option val) : N -> option val := fun k' => if k' =? k then o else g k'.
Definition map_op (p : list N) (o : mop) (s : list N * (N -> option val)) : (list N * (N -> option val)) * oret * list entry :=
  let '(ks, g) := s in
  match o with
  | MInsert k x => ((match g k with Some _ => ks | None => ks ++ [k] end, upd g k (Some x)), ROpt (g k), [EUpdate (p ++ [k]) (enc x)])
  | MRemove k => ((match g k with Some _ => map (fun k' => if k' =? k then last ks k else k') (removelast ks) | None => ks end, upd g k None),
                  ROpt (g k), [EMapRemove p k])
  end.
Fixpoint map_run (p : list N) (os : list mop) (s : list N * (N -> option val)) : (list N * (N -> option val)) * list oret * list entry :=
  match os with
  | [] => (s, [], [])
  | o :: os' => let '(s', x, es) := map_op p o s in let '(s'', xs, es') := map_run p os' s' in (s'', x :: xs, es ++ es')
  end.
Definition map_call (o : mop) : op := match o with MInsert k x => OInsert k x | MRemove k => ORemove k end.
Definition mop_ok (t : ty) (o : mop) : Prop := match o with MInsert k x => k < 2 ^ 32 /\ arg_ok t x | _ => True end.

(** [es] holds the finite map. *)
Definition holds (es : list (N * val)) (s : list N * (N -> option val)) : Prop := map fst es = fst s /\ forall k, assoc k es = snd s k.

Lemma assoc_none_keys {A} k (es : list (N * A)) : assoc k es = None <-> ~ In k (map fst es).
Proof.
  induction es as [|[k' x] es IH]; cbn; [tauto|]. destruct (k =? k') eqn:E.
  - apply N.eqb_eq in E. subst. split; [discriminate|intros H; exfalso; auto].
  - apply N.eqb_neq in E. rewrite IH. split; [intros H [->|I]; auto|intros H I; auto].
Qed.
Lemma key_split {A} k (es : list (N * A)) i : key_pos k es = Some i -> exists a x b, es = a ++ (k, x) :: b /\ length a = i /\ ~ In k (map fst a).
Proof.
  revert i. induction es as [|[k' x] es IH]; intros i E; [discriminate|]. cbn in E. destruct (k =? k') eqn:K.
  - apply N.eqb_eq in K. injection E as <-. subst. exists [], x, es. repeat split. intros [].
  - apply N.eqb_neq in K. destruct (key_pos k es) as [j|]; [|discriminate]. injection E as <-. destruct (IH j eq_refl) as (a & y & b & -> & <- & N).
    exists ((k', x) :: a), y, b. repeat split. cbn. intros [->|I]; auto.
Qed.
Lemma fill_other k z (ks : list N) : ~ In k ks -> map (fun k' => if k' =? k then z else k') ks = ks.
Proof. induction ks as [|a ks IH]; intros N; [reflexivity|]. cbn in *. destruct (a =? k) eqn:E; [apply N.eqb_eq in E; subst; exfalso; auto|]. f_equal. apply IH. auto. Qed.
Lemma remove_keys (es : list (N * val)) k x : NoDup (map fst es) -> assoc k es = Some x ->
  map fst (im_remove k es) = map (fun k' => if k' =? k then last (map fst es) k else k') (removelast (map fst es)).
Proof.
  intros D A. unfold im_remove. pose proof (key_pos_assoc k es) as K. destruct (key_pos k es) as [i|] eqn:P; [|congruence]. clear K A.
  destruct (key_split k es i P) as (a & y & b & -> & <- & Na). rewrite map_app in D. cbn [map fst] in D.
  pose proof (NoDup_remove_2 _ _ _ D) as Nb. destruct b as [|z b _] using rev_ind.
  - assert (E : swap_remove_at (a ++ [(k, y)]) (length a) = a).
    { unfold swap_remove_at. rewrite rev_app_distr. cbn [rev app]. rewrite app_length. cbn [length]. replace (Nat.eqb (S (length a)) (length a + 1)) with true by (symmetry; apply Nat.eqb_eq; lia). apply removelast_last. }
    rewrite E, map_app. cbn [map fst]. rewrite removelast_last. symmetry. now apply fill_other.
  - replace (a ++ (k, y) :: b ++ [z]) with ((a ++ (k, y) :: b) ++ [z]) by now rewrite <- app_assoc.
    rewrite swap_remove_set by (rewrite app_length; cbn; lia).
    assert (E : set_nth (a ++ (k, y) :: b) (length a) z = a ++ z :: b) by (clear; induction a as [|c a IH]; cbn; [reflexivity|now f_equal]).
    rewrite E, !map_app. cbn [map fst]. rewrite map_app in Nb. cbn [map] in Nb. rewrite removelast_last, last_snoc, map_app. cbn [map]. rewrite N.eqb_refl.
    rewrite !fill_other; [reflexivity| |exact Na]. intros I. apply Nb. apply in_or_app. right. apply in_or_app. now left.
Qed.
Lemma assoc_perm {A} (es es' : list (N * A)) k : NoDup (map fst es) -> Permutation.Permutation es es' -> assoc k es = assoc k es'.
Proof.
  intros D P. assert (D' : NoDup (map fst es')) by (eapply Permutation.Permutation_NoDup; [apply Permutation.Permutation_map, P|exact D]).
  assert (G : forall (l : list (N * A)) y, NoDup (map fst l) -> In (k, y) l -> assoc k l = Some y).
  { clear. induction l as [|[k' x] l IH]; intros y D I; [contradiction|]. cbn in *. inversion D; subst. destruct (k =? k') eqn:E.
    - apply N.eqb_eq in E. subst. destruct I as [I|I]; [congruence|]. exfalso. apply H1. now apply (in_map fst) in I.
    - apply N.eqb_neq in E. destruct I as [I|I]; [congruence|]. now apply IH. }
  destruct (assoc k es) as [x|] eqn:E.
  - symmetry. apply G; [exact D'|]. eapply Permutation.Permutation_in; [exact P|]. now apply assoc_in.
  - symmetry. apply assoc_none_keys. apply assoc_none_keys in E. intros I. apply E. eapply Permutation.Permutation_in; [|exact I]. symmetry. now apply Permutation.Permutation_map.
Qed.
Lemma assoc_remove (es : list (N * val)) k k' : NoDup (map fst es) -> assoc k' (im_remove k es) = if k' =? k then None else assoc k' es.
Proof.
  intros D. unfold im_remove. pose proof (key_pos_assoc k es) as K. destruct (key_pos k es) as [i|].
  - destruct K as (x & Nx & _). apply swap_remove_spec in Nx.
    assert (D2 : NoDup (map fst ((k, x) :: swap_remove_at es i))) by (eapply Permutation.Permutation_NoDup; [apply Permutation.Permutation_map, Nx|exact D]).
    rewrite (assoc_perm es _ k' D Nx). cbn in *. inversion D2; subst. destruct (k' =? k) eqn:E; [|reflexivity].
    apply N.eqb_eq in E. subst. now apply assoc_none_keys.
  - destruct (k' =? k) eqn:E; [apply N.eqb_eq in E; now subst|reflexivity].
Qed.
Lemma wt_map_keys kk t r es : wt (TMap kk t) (VMap r es) = true -> NoDup (map fst es).
Proof. cbn [wt]. intros W. bprop. now apply nodupb_NoDup. Qed.

Lemma map_step_ref m h kk t r es o s : ty_ok (TMap kk t) = true -> wt (TMap kk t) (VMap r es) = true -> mop_ok t o -> holds es s ->
  exists es' evs, let '(s', ret, ents) := map_op (collect_values (rt_path r)) o s in
    apply_op m h (TMap kk t) (map_call o) (VMap r es) = (VMap r es', (evs, Ok ret)) /\ wt (TMap kk t) (VMap r es') = true /\
    holds es' s' /\ logs m (rt_log r) evs ents.
Proof.
  intros O W K [Hk Hg]. destruct s as [ks g]. cbn [fst snd] in *. cbn [ty_ok] in O. apply andb_true_iff in O. destruct O as [O S]. pose proof (wt_map_keys _ _ _ _ W) as D.
  destruct o as [k x|k]; cbn [map_op map_call apply_op mop_ok] in *.
  - destruct K as [Lk A]. exists (im_insert k x es). unfold map_insert, rt_log_entry, entry_update_child, entry_update. rewrite (arg_bytes m t x h O A). cbn [bind mlift mbind mtry mret].
    eexists. split; [now rewrite Hg|]. split; [apply (im_insert_wt kk t r r); try assumption; now destruct A|]. split.
    + split; cbn [fst snd].
      * rewrite <- Hg. destruct (assoc k es) as [y|] eqn:E.
        { rewrite <- Hk. clear -E. induction es as [|[k' z] es IH]; [discriminate|]. cbn in *. destruct (k =? k'); [reflexivity|]. cbn. now rewrite IH. }
        { rewrite im_insert_app, map_app, Hk by exact E. reflexivity. }
      * intros k'. unfold upd. destruct (k' =? k) eqn:E; [apply N.eqb_eq in E; subst; apply assoc_im_same|]. apply N.eqb_neq in E. rewrite assoc_im_other by congruence. apply Hg.
    + cbn [app]. change (nested r k) with (rt_at r [k]). rewrite collect_at. apply logs_one.
  - exists (im_remove k es). unfold map_remove, rt_log_entry, entry_map_remove. cbn [bind mlift mbind mtry mret]. eexists. split; [now rewrite Hg|].
    split; [now apply im_remove_wt|]. split.
    + split; cbn [fst snd].
      * rewrite <- Hg. destruct (assoc k es) as [y|] eqn:E; [rewrite <- Hk; exact (remove_keys es k y D E)|].
        unfold im_remove. pose proof (key_pos_assoc k es) as P. destruct (key_pos k es); [destruct P as (z & _ & P); congruence|exact Hk].
      * intros k'. rewrite (assoc_remove es k k' D). unfold upd. destruct (k' =? k); [reflexivity|apply Hg].
    + cbn [app]. apply logs_one.
Qed.

Lemma in_assoc {A} (es : list (N * A)) k x : NoDup (map fst es) -> (In (k, x) es <-> assoc k es = Some x).
Proof.
  intros D. split; [|apply assoc_in]. induction es as [|[k' y] es IH]; [intros []|]. cbn in *. inversion D; subst. intros [I|I].
  - injection I as -> ->. now rewrite N.eqb_refl.
  - destruct (k =? k') eqn:E; [apply N.eqb_eq in E; subst; exfalso; apply H1; now apply (in_map fst) in I|]. now apply IH.
Qed.

Theorem c25_finite_map : forall m kk t r es (os : list (mop * store)), ty_ok (TMap kk t) = true -> wt (TMap kk t) (VMap r es) = true ->
  Forall (fun o => mop_ok t (fst o)) os ->
  let '((ks, g), rets, ents) := map_run (collect_values (rt_path r)) (map fst os) (map fst es, fun k => assoc k es) in
  exists v' evs,
    exec m (TMap kk t) (VMap r es) (map (fun o => mkCall [] (snd o) (map_call (fst o))) os) = (v', (evs, Ok rets)) /\
    (forall k, map_get v' k = g k) /\ (forall k, map_contains v' k = match g k with Some _ => true | None => false end) /\
    map_len v' = lenN ks /\ NoDup ks /\ (forall k, In k ks <-> g k <> None) /\
    (Forall (fun k => k <= mkey_max kk) ks ->
       exists l, map_iter kk v' = (l, Ok tt) /\ map fst l = ks /\ forall k x, In (k, x) l <-> g k = Some x) /\
    forall b, feeds m (rt_log r) (mkRL b 0) evs = Ok (mkRL (b ++ bufd ents) 0).
Proof.
  intros m kk t r es os O W Ko.
  enough (G : forall s, holds es s -> exists es' evs, let '(s', rets, ents) := map_run (collect_values (rt_path r)) (map fst os) s in
    exec m (TMap kk t) (VMap r es) (map (fun o => mkCall [] (snd o) (map_call (fst o))) os) = (VMap r es', (evs, Ok rets)) /\
    wt (TMap kk t) (VMap r es') = true /\ holds es' s' /\ logs m (rt_log r) evs ents).
  { destruct (G (map fst es, fun k => assoc k es)) as (es' & evs & H); [split; reflexivity|].
    destruct (map_run _ _ _) as [[[ks g] rets] ents]. destruct H as (E & W' & [Hk Hg] & L). cbn [fst snd] in *. pose proof (wt_map_keys _ _ _ _ W') as D.
    exists (VMap r es'), evs. split; [exact E|]. split; [exact Hg|]. split; [intros k; unfold map_contains, map_get; now rewrite Hg|].
    split; [unfold map_len, lenN; now rewrite <- Hk, map_length|]. split; [now rewrite <- Hk|]. split.
    { intros k. rewrite <- Hk, <- Hg. pose proof (assoc_none_keys k es') as N. destruct (assoc k es') as [x|] eqn:A.
      - split; [discriminate|]. intros _. apply assoc_in in A. now apply (in_map fst) in A.
      - split; [intros I; exfalso; now apply N|intros C; now contradiction C]. }
    split; [|exact L]. intros F. exists es'. split; [|split; [exact Hk|]].
    - apply entries_iter_fit. rewrite <- Hk in F. apply Forall_forall. intros e I. rewrite Forall_forall in F. apply F. now apply in_map.
    - intros k x. rewrite <- Hg. now apply in_assoc. }
  revert es W. induction Ko as [|[o h] os K _ IH]; intros es W s H.
  - exists es, []. cbn [map map_run]. split; [reflexivity|]. split; [exact W|]. split; [exact H|apply logs_nil].
  - cbn [map exec c_at c_caches c_op at_node fst snd map_run] in *.
    destruct (map_step_ref m h kk t r es o s O W K H) as (es1 & evs1 & H1). destruct (map_op _ o s) as [[s1 ret1] ents1]. destruct H1 as (E1 & W1 & H1 & L1).
    rewrite E1. cbn [mtry]. destruct (IH es1 W1 s1 H1) as (es2 & evs2 & H2). destruct (map_run _ _ s1) as [[s2 rets2] ents2]. destruct H2 as (E2 & W2 & H2 & L2).
    rewrite E2. cbn [mbind mret]. do 2 eexists. split; [reflexivity|]. split; [exact W2|]. split; [exact H2|]. rewrite app_nil_r. now apply logs_app.
Qed.
Print Assumptions c25_finite_map.
(** [collect] keeps the last binding of each key. *)
Theorem c25_collect : forall r l k,
  match map_get (map_from_iter r l) k with Some x => Some (plain x) | None => None end =
  match find (fun e => fst e =? k) (rev l) with Some e => Some (plain (snd e)) | None => None end.
Proof.
  intros r l k. unfold map_from_iter. rewrite set_map. cbn [map_get].
  assert (G : forall es, match assoc k (set_entries r es) with Some x => Some (plain x) | None => None end = match assoc k es with Some x => Some (plain x) | None => None end).
  { induction es as [|[k' x] es IH]; [reflexivity|]. cbn. destruct (k =? k'); [now rewrite plain_set|exact IH]. }
  rewrite G. clear G. induction l as [|[k' x] l IH] using rev_ind; [reflexivity|]. rewrite fold_left_app, rev_app_distr. cbn [fold_left rev app find fst snd].
  destruct (k' =? k) eqn:E; [apply N.eqb_eq in E; subst; now rewrite assoc_im_same|]. apply N.eqb_neq in E. rewrite assoc_im_other by congruence. exact IH.
Qed.
Print Assumptions c25_collect.
Example c25_case :
  let '(v, (evs, o)) := exec Debug (TMap K8 TBool) (VMap ex_rt []) (map (fun o => mkCall [] junk (map_call o))
    [MInsert 5 (VBool false); MInsert 9 (VBool true); MInsert 5 (VBool true); MInsert 2 (VBool false); MRemove 5; MRemove 77]) in
  map_iter K8 v = ([(2, VBool false); (9, VBool true)], Ok tt) /\
  o = Ok [ROpt None; ROpt None; ROpt (Some (VBool false)); ROpt None; ROpt (Some (VBool true)); ROpt None] /\ map_get v 9 = Some (VBool true).
Proof. vm_compute. auto. Qed.
