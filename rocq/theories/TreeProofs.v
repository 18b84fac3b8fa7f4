(** Looking up and replacing parts of values; runtimes of parts. *)
From Verif Require Import Base Varint WireFmt Utf8 Types Ser Spec De Log State StateSpec ValInd SerProofs TypeProofs EqProofs
  DeProofs RoundTrip NormProofs.

(** ** Lookup and replacement *)

Lemma find_field_tag {A} fn (fs : list (finfo * A)) fi x : find_field fn fs = Some (fi, x) -> f_tag fi = fn.
Proof.
  induction fs as [|[fj y] fs IH]; cbn; [discriminate|]. destruct (fn =? f_tag fj) eqn:E; [|exact IH].
  intros H. inversion H; subst. lia.
Qed.
Lemma find_field_in {A} fn (fs : list (finfo * A)) p : find_field fn fs = Some p -> In p fs.
Proof.
  induction fs as [|[fj y] fs IH]; cbn; [discriminate|]. destruct (fn =? f_tag fj) eqn:E; [|auto].
  intros H. inversion H. auto.
Qed.

Lemma find_field_wt fn ts : forall fs, wt_fields ts fs = true ->
  match find_field fn ts with
  | Some (fi, t) => exists x, find_field fn fs = Some (fi, x) /\ wt t x = true
  | None => find_field fn fs = None
  end.
Proof.
  induction ts as [|[fi t] ts IH]; intros [|[fj x] fs] W; try discriminate W; [reflexivity|].
  cbn in *. bprop. apply finfo_eqb_eq in H. subst fj. destruct (fn =? f_tag fi); [|now apply IH]. eauto.
Qed.

Lemma put_field_wt fn ts t fi x : find_field fn ts = Some (fi, t) -> wt t x = true -> forall fs,
  wt_fields ts fs = true -> wt_fields ts (put_field fn x fs) = true.
Proof.
  intros F Wx. induction ts as [|[fi' t'] ts IH]; intros [|[fj y] fs] W; try discriminate W; [discriminate F|].
  cbn in *. bprop. pose proof H as H'. apply finfo_eqb_eq in H'. subst fj.
  destruct (fn =? f_tag fi').
  - inversion F; subst. cbn. now rewrite H, Wx.
  - cbn. rewrite H, H1. cbn. now apply IH.
Qed.

Lemma find_put_same fn x fs fi y : find_field fn fs = Some (fi, y) -> find_field fn (put_field fn x fs) = Some (fi, x).
Proof.
  induction fs as [|[fj z] fs IH]; cbn; [discriminate|]. destruct (fn =? f_tag fj) eqn:E; cbn; rewrite E.
  - intros H. now inversion H.
  - exact IH.
Qed.
Lemma find_put_other fn fn' x fs : fn <> fn' -> find_field fn' (put_field fn x fs) = find_field fn' fs.
Proof.
  intros N. induction fs as [|[fj z] fs IH]; cbn; [reflexivity|]. destruct (fn =? f_tag fj) eqn:E; cbn.
  - destruct (fn' =? f_tag fj) eqn:E2; [lia|reflexivity].
  - destruct (fn' =? f_tag fj); [reflexivity|exact IH].
Qed.
Lemma put_put fn x y fs : put_field fn x (put_field fn y fs) = put_field fn x fs.
Proof.
  induction fs as [|[fj z] fs IH]; cbn; [reflexivity|]. destruct (fn =? f_tag fj) eqn:E; cbn; rewrite E; congruence.
Qed.
Lemma put_same fn fs fi x : find_field fn fs = Some (fi, x) -> put_field fn x fs = fs.
Proof.
  induction fs as [|[fj z] fs IH]; cbn; [discriminate|]. destruct (fn =? f_tag fj) eqn:E.
  - intros H. now inversion H.
  - intros H. now rewrite IH.
Qed.

Lemma set_nth_len {A} (l : list A) : forall i x, length (set_nth l i x) = length l.
Proof. induction l as [|y l IH]; intros [|i] x; cbn; auto. Qed.
Lemma nth_set_same {A} (l : list A) : forall i x y, nth_error l i = Some y -> nth_error (set_nth l i x) i = Some x.
Proof. induction l as [|z l IH]; intros [|i] x y H; cbn in *; try discriminate; [reflexivity|]. eauto. Qed.
Lemma nth_set_other {A} (l : list A) : forall i j x, i <> j -> nth_error (set_nth l i x) j = nth_error l j.
Proof.
  induction l as [|z l IH]; intros [|i] [|j] x H; cbn; try reflexivity; try congruence. apply IH. congruence.
Qed.
Lemma set_set {A} (l : list A) : forall i x y, set_nth (set_nth l i x) i y = set_nth l i y.
Proof. induction l as [|z l IH]; intros [|i] x y; cbn; f_equal; auto. Qed.
Lemma set_nth_same {A} (l : list A) : forall i x, nth_error l i = Some x -> set_nth l i x = l.
Proof. induction l as [|z l IH]; intros [|i] x H; cbn in *; try discriminate; [congruence|]. f_equal. auto. Qed.
Lemma set_nth_forallb {A} (f : A -> bool) (l : list A) : forall i x, f x = true -> forallb f l = true ->
  forallb f (set_nth l i x) = true.
Proof.
  induction l as [|z l IH]; intros [|i] x Hx H; cbn in *; auto; bprop; apply andb_true_iff; auto.
Qed.
Lemma set_nth_in {A} (l : list A) : forall i x y, In y (set_nth l i x) -> y = x \/ In y l.
Proof.
  induction l as [|z l IH]; intros [|i] x y H; cbn in *; auto; destruct H as [<-|H]; auto.
  apply IH in H. intuition.
Qed.
Lemma nth_forallb {A} (f : A -> bool) (l : list A) i x : nth_error l i = Some x -> forallb f l = true -> f x = true.
Proof. intros H F. rewrite forallb_forall in F. apply F. now apply nth_error_In in H. Qed.

Lemma assoc_im_same {A} k (x : A) es : assoc k (im_insert k x es) = Some x.
Proof.
  induction es as [|[k' y] es IH]; cbn; [now rewrite N.eqb_refl|]. destruct (k =? k') eqn:E; cbn; rewrite E; auto.
Qed.
Lemma assoc_im_other {A} k k' (x : A) es : k <> k' -> assoc k' (im_insert k x es) = assoc k' es.
Proof.
  intros N. induction es as [|[k1 y] es IH]; cbn.
  - destruct (k' =? k) eqn:E; [lia|reflexivity].
  - destruct (k =? k1) eqn:E; cbn; destruct (k' =? k1) eqn:E2; try reflexivity; try exact IH. lia.
Qed.
Lemma im_im {A} k (x y : A) es : im_insert k y (im_insert k x es) = im_insert k y es.
Proof.
  induction es as [|[k' z] es IH]; cbn; [now rewrite N.eqb_refl|]. destruct (k =? k') eqn:E; cbn; rewrite E; congruence.
Qed.
Lemma im_same {A} k (x : A) es : assoc k es = Some x -> im_insert k x es = es.
Proof.
  induction es as [|[k' z] es IH]; cbn; [discriminate|]. destruct (k =? k') eqn:E; intros H; [now inversion H|].
  now rewrite IH.
Qed.
Lemma assoc_wt k t r es i x : wt (TMap k t) (VMap r es) = true -> assoc i es = Some x -> i < 2 ^ 32 /\ wt t x = true.
Proof.
  intros W H. cbn [wt] in W. bprop. apply assoc_in in H. rewrite forallb_forall in H0. specialize (H0 _ H). cbn in H0. bprop.
  split; [lia|assumption].
Qed.

(** ** Named pieces of [norm] and [set_rt] *)

Fixpoint norm_fields (r : rt) (fs : list (finfo * val)) : list (finfo * val) :=
  match fs with
  | [] => []
  | (fi, x) :: fs' => (fi, norm (field_rt r fi) x) :: norm_fields r fs'
  end.
Fixpoint norm_entries (r : rt) (es : list (N * val)) : list (N * val) :=
  match es with
  | [] => []
  | (k, x) :: es' => (k, norm (nested r k) x) :: norm_entries r es'
  end.
Lemma norm_fields_map r fs : norm_fields r fs = map (fun p : finfo * val => let '(fi, x) := p in (fi, norm (field_rt r fi) x)) fs.
Proof. induction fs as [|[fi x] fs IH]; cbn; congruence. Qed.
Lemma norm_entries_map r es : norm_entries r es = map (fun e : N * val => let '(k, x) := e in (k, norm (nested r k) x)) es.
Proof. induction es as [|[fi x] fs IH]; cbn; congruence. Qed.
Lemma norm_struct r c r0 fs : norm r (VStruct c r0 fs) =
  VStruct c (match r0 with Some _ => Some r | None => None end) (norm_fields r fs).
Proof. now rewrite norm_fields_map. Qed.
Lemma norm_enum r tag c r0 fs : norm r (VEnum tag c r0 fs) =
  VEnum tag c (match r0 with Some _ => Some (nested r tag) | None => None end) (norm_fields (nested r tag) fs).
Proof. now rewrite norm_fields_map. Qed.
Lemma norm_map r r0 es : norm r (VMap r0 es) = VMap r (norm_entries r es).
Proof. now rewrite norm_entries_map. Qed.

Fixpoint set_fields (r : rt) (fs : list (finfo * val)) : list (finfo * val) :=
  match fs with
  | [] => []
  | (fi, x) :: fs' => (fi, if f_state fi then set_rt (nested r (f_tag fi)) x else x) :: set_fields r fs'
  end.
Fixpoint set_items (r : rt) (i : N) (l : list val) : list val :=
  match l with
  | [] => []
  | x :: l' => set_rt (nested r i) x :: set_items r (i + 1) l'
  end.
Fixpoint set_entries (r : rt) (es : list (N * val)) : list (N * val) :=
  match es with
  | [] => []
  | (k, x) :: es' => (k, set_rt (nested r k) x) :: set_entries r es'
  end.
Lemma set_fields_map r fs : set_fields r fs =
  map (fun p : finfo * val => let '(fi, x) := p in (fi, if f_state fi then set_rt (nested r (f_tag fi)) x else x)) fs.
Proof. induction fs as [|[fi x] fs IH]; cbn; congruence. Qed.
Lemma set_entries_map r es : set_entries r es = map (fun e : N * val => let '(k, x) := e in (k, set_rt (nested r k) x)) es.
Proof. induction es as [|[fi x] fs IH]; cbn; congruence. Qed.
Lemma set_struct r c r0 fs : set_rt r (VStruct c (Some r0) fs) = VStruct c (Some r) (set_fields r fs).
Proof. now rewrite set_fields_map. Qed.
Lemma set_enum r tag c r0 fs : set_rt r (VEnum tag c (Some r0) fs) =
  VEnum tag c (Some (nested r tag)) (set_fields (nested r tag) fs).
Proof. now rewrite set_fields_map. Qed.
Lemma set_list r r0 l : set_rt r (VList r0 l) = VList r (set_items r 0 l).
Proof. cbn [set_rt]. f_equal. generalize 0. induction l; intros i; cbn; congruence. Qed.
Lemma set_map r r0 es : set_rt r (VMap r0 es) = VMap r (set_entries r es).
Proof. now rewrite set_entries_map. Qed.

Lemma find_norm_fields fn r fs : find_field fn (norm_fields r fs) =
  match find_field fn fs with Some (fi, x) => Some (fi, norm (field_rt r fi) x) | None => None end.
Proof. induction fs as [|[fi x] fs IH]; [reflexivity|]. cbn. destruct (fn =? f_tag fi); [reflexivity|exact IH]. Qed.
Lemma put_norm_fields fn r x fi y fs : find_field fn fs = Some (fi, y) ->
  put_field fn (norm (field_rt r fi) x) (norm_fields r fs) = norm_fields r (put_field fn x fs).
Proof.
  induction fs as [|[fj z] fs IH]; cbn; [discriminate|]. destruct (fn =? f_tag fj).
  - intros H. inversion H; subst. reflexivity.
  - intros H. cbn. f_equal. now apply IH.
Qed.
Lemma nth_norm_items r : forall l i j, nth_error (norm_items r i l) j =
  match nth_error l j with Some x => Some (norm (nested r (i + N.of_nat j)) x) | None => None end.
Proof.
  induction l as [|x l IH]; intros i [|j]; cbn; try reflexivity.
  - do 3 f_equal. lia.
  - rewrite IH. destruct (nth_error l j); [|reflexivity]. do 3 f_equal. lia.
Qed.
Lemma set_norm_items r x : forall l i j, set_nth (norm_items r i l) j (norm (nested r (i + N.of_nat j)) x) =
  norm_items r i (set_nth l j x).
Proof.
  induction l as [|y l IH]; intros i [|j]; cbn; try reflexivity.
  - do 3 f_equal. lia.
  - f_equal. rewrite <- IH. do 3 f_equal. lia.
Qed.
Lemma assoc_norm_entries k r es : assoc k (norm_entries r es) =
  match assoc k es with Some x => Some (norm (nested r k) x) | None => None end.
Proof.
  induction es as [|[k' x] es IH]; [reflexivity|]. cbn. destruct (k =? k') eqn:E; [|exact IH].
  apply N.eqb_eq in E. now subst.
Qed.
Lemma im_norm_entries k r x es : im_insert k (norm (nested r k) x) (norm_entries r es) = norm_entries r (im_insert k x es).
Proof.
  induction es as [|[k' y] es IH]; [reflexivity|]. cbn. destruct (k =? k') eqn:E; cbn; [|f_equal; exact IH].
  apply N.eqb_eq in E. now subst.
Qed.

(** ** [norm] and [set_rt] *)

Lemma norm_set_rt v : forall r s, norm r (set_rt s v) = norm r v.
Proof.
  induction v as [v L|v IH|v C IH] using val_slots_ind; intros r s.
  - destruct v; try discriminate L; reflexivity.
  - cbn. now rewrite IH.
  - assert (FF : forall r s fs, Forall (fun sl : slot => forall r s, norm r (set_rt s (snd sl)) = norm r (snd sl)) (map fslot fs) ->
      norm_fields r (set_fields s fs) = norm_fields r fs).
    { intros r' s'. induction fs as [|[fi x] fs IHf]; intros H; [reflexivity|]. cbn [map] in H. inversion H as [|? ? X1 IH2]; subst.
      cbn in *. rewrite IHf by exact IH2. destruct (f_state fi); [now rewrite X1|reflexivity]. }
    destruct v as [| | | |[x|]|l|l|l|l| |c [ra|] fs|tag c [ra|] fs|ra l|ra es]; try discriminate C; try reflexivity; clear C; cbn [slots] in IH.
    + rewrite set_struct, !norm_struct. now rewrite FF.
    + rewrite set_enum, !norm_enum. now rewrite FF.
    + apply (slot_items (fun x => forall r s, norm r (set_rt s x) = norm r x)) in IH.
      rewrite set_list, !norm_list. f_equal. enough (G : forall i j, norm_items r i (set_items s j l) = norm_items r i l) by apply G.
      induction IH as [|x l Hx _ IHl]; intros i j; [reflexivity|]. cbn. now rewrite Hx, IHl.
    + rewrite set_map, !norm_map. f_equal. induction es as [|[k x] l IHl]; [reflexivity|]. cbn [map] in IH.
      inversion IH as [|? ? X1 IH2]; subst. cbn in *. now rewrite X1, IHl.
Qed.

Lemma set_set_rt v : forall r s, set_rt r (set_rt s v) = set_rt r v.
Proof.
  induction v as [v L|v IH|v C IH] using val_slots_ind; intros r s.
  - destruct v; try discriminate L; reflexivity.
  - cbn. now rewrite IH.
  - assert (FF : forall r s fs, Forall (fun sl : slot => forall r s, set_rt r (set_rt s (snd sl)) = set_rt r (snd sl)) (map fslot fs) ->
      set_fields r (set_fields s fs) = set_fields r fs).
    { intros r' s'. induction fs as [|[fi x] fs IHf]; intros H; [reflexivity|]. cbn [map] in H. inversion H as [|? ? X1 IH2]; subst.
      cbn in *. rewrite IHf by exact IH2. destruct (f_state fi); [now rewrite X1|reflexivity]. }
    destruct v as [| | | |[x|]|l|l|l|l| |c [ra|] fs|tag c [ra|] fs|ra l|ra es]; try discriminate C; try reflexivity; clear C; cbn [slots] in IH.
    + rewrite !set_struct. now rewrite FF.
    + rewrite !set_enum. now rewrite FF.
    + apply (slot_items (fun x => forall r s, set_rt r (set_rt s x) = set_rt r x)) in IH.
      rewrite !set_list. f_equal. enough (G : forall i j, set_items r i (set_items s j l) = set_items r i l) by apply G.
      induction IH as [|x l Hx _ IHl]; intros i j; [reflexivity|]. cbn. now rewrite Hx, IHl.
    + rewrite !set_map. f_equal. induction es as [|[k x] l IHl]; [reflexivity|]. cbn [map] in IH.
      inversion IH as [|? ? X1 IH2]; subst. cbn in *. now rewrite X1, IHl.
Qed.

Lemma norm_same r s a b : norm r a = norm r b -> norm s a = norm s b.
Proof. intros H. rewrite <- (norm_norm a s r), H. apply norm_norm. Qed.

Lemma enc_set_rt v r : enc (set_rt r v) = enc v.
Proof. rewrite <- (enc_norm _ rt_default), norm_set_rt. apply enc_norm. Qed.
Lemma vwty_set_rt v r : vwty (set_rt r v) = vwty v.
Proof. rewrite <- (vwty_norm _ rt_default), norm_set_rt. apply vwty_norm. Qed.

Lemma forallb_map {A B} (f : B -> bool) (g : A -> B) l : forallb f (map g l) = forallb (fun x => f (g x)) l.
Proof. induction l; cbn; congruence. Qed.
Lemma forallb_ext_in {A} (f g : A -> bool) l : Forall (fun x => f x = g x) l -> forallb f l = forallb g l.
Proof. induction 1; cbn; congruence. Qed.

Lemma writable_norm v : forall r, writable (norm r v) = writable v /\ ints_safe (norm r v) = ints_safe v.
Proof.
  induction v as [v L|v IH|v C IH] using val_slots_ind; intros r.
  - destruct v; try discriminate L; split; reflexivity.
  - cbn. apply IH.
  - pose (P := fun x => forall r, writable (norm r x) = writable x /\ ints_safe (norm r x) = ints_safe x).
    assert (II : forall l, Forall P l -> forallb writable (map (norm rt_default) l) = forallb writable l /\
                                          forallb ints_safe (map (norm rt_default) l) = forallb ints_safe l).
    { intros l H. rewrite !forallb_map. split; apply forallb_ext_in; (eapply Forall_impl; [|exact H]); intros x Hx; apply Hx. }
    assert (FF : forall r fs, Forall (fun sl : slot => P (snd sl)) (map fslot fs) ->
      forallb (fun p : finfo * val => let '(_, x) := p in writable x) (norm_fields r fs) = forallb (fun p : finfo * val => let '(_, x) := p in writable x) fs /\
      forallb (fun p : finfo * val => let '(_, x) := p in ints_safe x) (norm_fields r fs) = forallb (fun p : finfo * val => let '(_, x) := p in ints_safe x) fs).
    { intros r'. induction fs as [|[fi x] fs IHf]; intros H; [split; reflexivity|]. cbn [map] in H. inversion H as [|? ? X1 IH2]; subst.
      cbn in *. destruct (IHf IH2) as [-> ->]. destruct (X1 (field_rt r' fi)) as [-> ->]. split; reflexivity. }
    destruct v as [| | | |[x|]|l|l|l|l| |c ra fs|tag c ra fs|ra l|ra es]; try discriminate C; clear C; cbn [slots] in IH.
    + inversion IH as [|? ? X1 IH2]; subst. cbn. apply X1.
    + split; reflexivity.
    + apply II. now apply (slot_items P) in IH.
    + apply II. now apply (slot_items P) in IH.
    + apply II. now apply (slot_items P) in IH.
    + cbn [norm writable ints_safe]. induction l as [|[k x] l IHl]; [split; reflexivity|]. cbn [flat_map hslots app] in IH.
      inversion IH as [|? ? K1 IH1]; subst. inversion IH1 as [|? ? X1 IH2]; subst. cbn in *.
      destruct (IHl IH2) as [-> ->]. destruct (K1 rt_default) as [-> ->]. destruct (X1 rt_default) as [-> ->]. split; reflexivity.
    + rewrite norm_struct. cbn. now apply FF.
    + rewrite norm_enum. cbn. now apply FF.
    + rewrite norm_list. cbn [writable ints_safe]. apply (slot_items P) in IH. generalize 0.
      induction IH as [|x l Hx _ IHl]; intros i; [split; reflexivity|]. cbn. destruct (IHl (i + 1)) as [-> ->]. destruct (Hx (nested r i)) as [-> ->]. split; reflexivity.
    + rewrite norm_map. cbn [writable ints_safe]. induction es as [|[k x] l IHl]; [split; reflexivity|]. cbn [map] in IH.
      inversion IH as [|? ? X1 IH2]; subst. cbn in *. destruct (IHl IH2) as [-> ->]. destruct (X1 (nested r k)) as [-> ->]. split; reflexivity.
Qed.

Lemma keys_in_norm t : forall v r, keys_in t (norm r v) = keys_in t v.
Proof.
  induction t as [k| | | |t IH|t IH|n t IH|ts IH|k t IHk IHt|t IH|si fs IH|st vs IH|t IH|k t IH]
    using ty_ind'; intros v r; destruct v; try reflexivity.
  - destruct o; [|reflexivity]. apply IH.
  - cbn. rewrite forallb_map. apply forallb_ext_in, Forall_forall. intros x _. apply IH.
  - cbn. rewrite forallb_map. apply forallb_ext_in, Forall_forall. intros x _. apply IH.
  - cbn [norm]. rewrite !keys_tup. revert l. induction IH as [|t ts H _ IH]; intros [|x l]; try reflexivity. cbn. now rewrite H, IH.
  - cbn. rewrite forallb_map. apply forallb_ext_in, Forall_forall. intros [a b] _. cbn. now rewrite IHk, IHt.
  - apply IH.
  - rewrite norm_struct, !keys_struct. revert fs0. induction IH as [|[fi t] ts H _ IH]; intros [|[fj x] fs0]; try reflexivity. cbn in *. now rewrite H, IH.
  - rewrite norm_enum, !keys_enum. destruct (find_variant vs tag) as [va|] eqn:F; [|reflexivity]. apply find_variant_in in F. destruct F as [F _].
    rewrite Forall_forall in IH. specialize (IH va F). revert fs. generalize (nested r tag).
    induction IH as [|[fi t] ts H _ IH]; intros s [|[fj x] fs0]; try reflexivity. cbn in *. now rewrite H, IH.
  - rewrite norm_list. cbn. generalize 0. induction l as [|x l IHl]; intros i; [reflexivity|]. cbn. now rewrite IH, IHl.
  - rewrite norm_map. cbn. induction es as [|[i x] l IHl]; [reflexivity|]. cbn. now rewrite IH, IHl.
Qed.

Lemma lossless_norm t v r : lossless t (norm r v) = lossless t v.
Proof. unfold lossless. destruct (writable_norm v r) as [-> ->]. now rewrite keys_in_norm. Qed.
Lemma lossless_set_rt t v r : lossless t (set_rt r v) = lossless t v.
Proof. rewrite <- (lossless_norm t _ rt_default), norm_set_rt. apply lossless_norm. Qed.

Lemma set_fields_wt r ts : Forall (fun p => forall v r, wt (snd p) v = true -> wt (snd p) (set_rt r v) = true) ts ->
  forall fs, wt_fields ts fs = true -> wt_fields ts (set_fields r fs) = true.
Proof.
  induction 1 as [|[fi t] ts H _ IH]; intros [|[fj x] fs] W; try discriminate W; [reflexivity|].
  cbn in *. bprop. rewrite !andb_true_iff. repeat split; auto. destruct (f_state fj); auto.
Qed.
Lemma wt_set_rt t : forall v r, wt t v = true -> wt t (set_rt r v) = true.
Proof.
  induction t as [k| | | |t IH|t IH|n t IH|ts IH|k t IHk IHt|t IH|si fs IH|st vs IH|t IH|k t IH]
    using ty_ind'; intros v r W; destruct v; try discriminate W; try exact W.
  - cbn in *. now apply IH.
  - destruct r0 as [r0|]; [|exact W]. rewrite set_struct, wt_struct_eq in *. bprop. rewrite !andb_true_iff.
    repeat split; try assumption. now apply set_fields_wt.
  - destruct r0 as [r0|]; [|exact W]. rewrite set_enum, wt_enum_eq in *. bprop. rewrite !andb_true_iff.
    destruct (find_variant vs tag) as [[[tg c'] ts]|] eqn:F; [|discriminate]. bprop.
    apply find_variant_in in F. destruct F as [F _]. rewrite Forall_forall in IH. specialize (IH _ F). cbn [snd] in IH.
    repeat split; [assumption|]. rewrite andb_true_iff. split; [assumption|]. now apply set_fields_wt.
  - rewrite set_list. cbn [wt] in *. generalize 0. induction l as [|x l IHl]; intros i; [reflexivity|].
    cbn in *. bprop. rewrite andb_true_iff. auto.
  - rewrite set_map. cbn [wt] in *. bprop. rewrite andb_true_iff. rewrite set_entries_map. split.
    + rewrite forallb_forall in *. intros y Hy. apply in_map_iff in Hy. destruct Hy as ([a b] & <- & Hx).
      specialize (H _ Hx). cbn in *. bprop. rewrite andb_true_iff. auto.
    + rewrite map_map. erewrite map_ext; [eassumption|]. now intros [a b].
Qed.

(** ** Defaults *)

Lemma state_field st fs fi t : fields_ok st fs = true -> In (fi, t) fs -> ty_ok t = true /\ f_tag fi <= FIELD_NUMBER_MAX /\
  (f_state fi = true -> st = true /\ state_ty t = true).
Proof.
  intros H I. unfold fields_ok in H. rewrite forallb_forall in H. specialize (H _ I). cbn in H. bprop.
  split; [assumption|split; [lia|]]. intros F. rewrite F in *. cbn in *. bprop. auto.
Qed.

Lemma set_dflt_fields st r fs : fields_ok st fs = true ->
  Forall (fun p => ty_ok (snd p) = true -> state_ty (snd p) = true -> forall r, set_rt r (dflt (snd p) r) = dflt (snd p) r) fs ->
  set_fields r (dflt_fields r fs) = dflt_fields r fs.
Proof.
  intros O H. rewrite set_fields_map. unfold dflt_fields. rewrite map_map. apply map_ext_in. intros [fi t] I.
  rewrite Forall_forall in H. specialize (H _ I). destruct (state_field _ _ _ _ O I) as (Ot & _ & St). cbn in *.
  unfold field_rt. destruct (f_state fi) eqn:F; [|reflexivity]. f_equal. apply H; [assumption|now apply St].
Qed.

Lemma set_dflt t : ty_ok t = true -> state_ty t = true -> forall r, set_rt r (dflt t r) = dflt t r.
Proof.
  induction t as [k| | | |t IH|t IH|n t IH|ts IH|k t IHk IHt|t IH|si fs IH|st vs IH|t IH|k t IH]
    using ty_ind'; intros O S r; try discriminate S; try reflexivity.
  - cbn in *. now rewrite IH.
  - rewrite ty_ok_struct in O. bprop. cbn [state_ty] in S. cbn [dflt]. rewrite S.
    change (set_rt r (VStruct (s_cache si) (Some r) (dflt_fields r fs)) = VStruct (s_cache si) (Some r) (dflt_fields r fs)).
    rewrite set_struct. f_equal. eapply set_dflt_fields; eassumption.
  - rewrite dflt_enum. destruct (find_variant vs 0) as [va|] eqn:F; [|reflexivity].
    apply find_variant_in in F. destruct F as [F _]. rewrite Forall_forall in IH. specialize (IH _ F).
    pose proof (variant_fields_ok st vs va O F) as (_ & Of & _).
    destruct va as [[tag c] fts]. cbn [state_ty] in S. subst st. cbn [variant_ctor snd] in *. rewrite set_enum. f_equal.
    eapply set_dflt_fields; eassumption.
Qed.

Lemma set_ctor st vs tag va r : ty_ok (TEnum st vs) = true -> find_variant vs tag = Some va ->
  set_rt r (variant_ctor st va r) = variant_ctor st va r.
Proof.
  intros O F. apply find_variant_in in F. destruct F as [F _]. pose proof (variant_fields_ok st vs va O F) as (_ & Of & _).
  destruct va as [[tag' c] fts]. cbn [variant_ctor snd] in *. destruct st; [|reflexivity].
  rewrite set_enum. f_equal. eapply set_dflt_fields; [exact Of|]. apply Forall_forall. intros [fi t] _ Ot St. now apply set_dflt.
Qed.

Lemma norm_dflt_fields r s fs : Forall (fun p => forall r s, norm r (dflt (snd p) s) = dflt (snd p) r) fs ->
  norm_fields r (dflt_fields s fs) = dflt_fields r fs.
Proof.
  intros H. rewrite norm_fields_map. unfold dflt_fields. rewrite map_map. apply map_ext_in. intros [fi t] I.
  rewrite Forall_forall in H. specialize (H _ I). cbn in *. now rewrite H.
Qed.
Lemma norm_dflt t : forall r s, norm r (dflt t s) = dflt t r.
Proof.
  induction t as [k| | | |t IH|t IH|n t IH|ts IH|k t IHk IHt|t IH|si fs IH|st vs IH|t IH|k t IH]
    using ty_ind'; intros r s; try reflexivity.
  - cbn. f_equal. induction n as [|n IHn]; [reflexivity|]. cbn. now rewrite IH, IHn.
  - cbn. f_equal. rewrite map_map. apply map_ext_in. intros t I. rewrite Forall_forall in IH. now apply IH.
  - cbn. now rewrite IH.
  - cbn [dflt]. change (norm r (VStruct (s_cache si) (if s_state si then Some s else None) (dflt_fields s fs)) =
      VStruct (s_cache si) (if s_state si then Some r else None) (dflt_fields r fs)).
    rewrite norm_struct. rewrite norm_dflt_fields by exact IH. now destruct (s_state si).
  - rewrite !dflt_enum. destruct (find_variant vs 0) as [va|] eqn:F; [|reflexivity].
    apply find_variant_in in F. destruct F as [F _]. rewrite Forall_forall in IH. specialize (IH _ F).
    destruct va as [[tag c] fts]. cbn [variant_ctor snd] in *. rewrite norm_enum. rewrite norm_dflt_fields by exact IH. now destruct st.
Qed.
Lemma norm_ctor st va r s : norm r (variant_ctor st va s) = variant_ctor st va r.
Proof.
  destruct va as [[tag c] fts]. cbn [variant_ctor]. rewrite norm_enum. rewrite norm_dflt_fields; [now destruct st|].
  apply Forall_forall. intros p _. apply norm_dflt.
Qed.

(** ** Parts of values *)

Lemma wt_enum_inv st vs tag c r fs : wt (TEnum st vs) (VEnum tag c r fs) = true ->
  exists c' fts, find_variant vs tag = Some ((tag, c'), fts) /\ c' = c /\ wt_fields fts fs = true /\
    (st = match r with Some _ => true | None => false end) /\ rt_below r = true.
Proof.
  intros W. rewrite wt_enum_eq in W. bprop. destruct (find_variant vs tag) as [[[tg c'] ts]|] eqn:F; [|discriminate]. bprop.
  pose proof F as F'. apply find_variant_in in F'. destruct F' as [_ E]. cbn in E. subst tg. exists c', ts.
  apply eqb_prop in H, H0. auto 6.
Qed.

Lemma field_child_wt fn fts fs t x : wt_fields fts fs = true -> field_child fn fts fs = Some (t, x) ->
  exists fi, find_field fn fts = Some (fi, t) /\ find_field fn fs = Some (fi, x) /\ wt t x = true.
Proof.
  intros W E. unfold field_child in E. pose proof (find_field_wt fn fts fs W) as H.
  destruct (find_field fn fts) as [[fi t']|]; [|discriminate E]. destruct H as (y & F & Wy). rewrite F in E.
  inversion E; subst. eauto.
Qed.

(** What a step leads to: type, well-typedness, and replacing keeps them. *)
Lemma child_wt t v s t' x : ty_ok t = true -> wt t v = true -> child t v s = Some (t', x) ->
  ty_ok t' = true /\ wt t' x = true /\ (state_ty t = true -> state_step v s = true -> state_ty t' = true).
Proof.
  intros O W E. destruct s as [fn|i|k|]; destruct t as [kk| | | |t|t|n t|ts|kt vt|t|si fts|st vs|t|kt t]; try discriminate E;
    destruct v as [| | | | | | | | |y|c r fs|tag c r fs|r l|r es]; try discriminate E; cbn [child] in E.
  - rewrite wt_struct_eq in W. bprop. rewrite ty_ok_struct in O. bprop.
    destruct (field_child_wt _ _ _ _ _ H0 E) as (fi & F1 & F2 & Wx). pose proof (find_field_in _ _ _ F1) as I.
    destruct (state_field _ _ _ _ H2 I) as (Ot & _ & St). repeat split; try assumption. intros _ S. cbn in S. rewrite F2 in S. now apply St.
  - destruct (wt_enum_inv _ _ _ _ _ _ W) as (c' & fts & F & -> & Wf & _). rewrite F in E. cbn in E.
    destruct (field_child_wt _ _ _ _ _ Wf E) as (fi & F1 & F2 & Wx). pose proof (find_field_in _ _ _ F1) as I.
    apply find_variant_in in F. destruct F as [F _]. destruct (variant_fields_ok _ _ _ O F) as (_ & Of & _). cbn in Of.
    destruct (state_field _ _ _ _ Of I) as (Ot & _ & St). repeat split; try assumption. intros _ S. cbn in S. rewrite F2 in S. now apply St.
  - destruct (nth_error l (N.to_nat i)) as [y|] eqn:F; [|discriminate E]. inversion E; subst. cbn in O, W. bprop.
    repeat split; try assumption. now apply (nth_forallb _ _ _ _ F) in W. auto.
  - destruct (assoc k es) as [y|] eqn:F; [|discriminate E]. inversion E; subst. cbn in O. bprop.
    destruct (assoc_wt _ _ _ _ _ _ W F). auto.
  - inversion E; subst. auto.
Qed.

Lemma put_child_wt t v s t' x x' : wt t v = true -> child t v s = Some (t', x) -> wt t' x' = true ->
  wt t (put_child v s x') = true.
Proof.
  intros W E Wx. destruct s as [fn|i|k|]; destruct t as [kk| | | |t|t|n t|ts|kt vt|t|si fts|st vs|t|kt t]; try discriminate E;
    destruct v as [| | | | | | | | |y|c r fs|tag c r fs|r l|r es]; try discriminate E; cbn [child put_child] in *.
  - rewrite wt_struct_eq in *. bprop. destruct (field_child_wt _ _ _ _ _ H0 E) as (fi & F1 & F2 & _).
    rewrite !andb_true_iff. repeat split; try assumption. now apply (put_field_wt fn fts t' fi).
  - destruct (wt_enum_inv _ _ _ _ _ _ W) as (c' & fts & F & -> & Wf & _). rewrite F in E. cbn in E.
    destruct (field_child_wt _ _ _ _ _ Wf E) as (fi & F1 & F2 & _).
    rewrite wt_enum_eq in *. rewrite F in *. bprop. rewrite !andb_true_iff. repeat split; try assumption. now apply (put_field_wt fn fts t' fi).
  - destruct (nth_error l (N.to_nat i)) as [y|] eqn:F; [|discriminate E]. inversion E; subst. cbn in *. now apply set_nth_forallb.
  - destruct (assoc k es) as [y|] eqn:F; [|discriminate E]. inversion E; subst. destruct (assoc_wt _ _ _ _ _ _ W F).
    eapply im_insert_wt; eassumption.
  - inversion E; subst. assumption.
Qed.

Lemma child_put t v s t' x x' : child t v s = Some (t', x) -> child t (put_child v s x') s = Some (t', x').
Proof.
  assert (FF : forall fn fts fs t' x x', field_child fn fts fs = Some (t', x) -> field_child fn fts (put_field fn x' fs) = Some (t', x')).
  { intros fn fts fs t1 y y'. unfold field_child. destruct (find_field fn fts) as [[fi t2]|]; [|discriminate].
    destruct (find_field fn fs) as [[fj z]|] eqn:F; [|discriminate]. rewrite (find_put_same _ _ _ _ _ F). intros H. now inversion H. }
  intros E. destruct s as [fn|i|k|]; destruct t as [kk| | | |t|t|n t|ts|kt vt|t|si fts|st vs|t|kt t]; try discriminate E;
    destruct v as [| | | | | | | | |y|c r fs|tag c r fs|r l|r es]; try discriminate E; cbn [child put_child] in *.
  - eapply FF. exact E.
  - destruct (find_variant vs tag); [|discriminate E]. eapply FF. exact E.
  - destruct (nth_error l (N.to_nat i)) as [y|] eqn:F; [|discriminate E]. inversion E; subst. now rewrite (nth_set_same _ _ _ _ F).
  - destruct (assoc k es) as [y|] eqn:F; [|discriminate E]. inversion E; subst. now rewrite assoc_im_same.
  - now inversion E.
Qed.
Lemma put_child_put v s x x' : put_child (put_child v s x) s x' = put_child v s x'.
Proof.
  destruct s, v; try reflexivity; cbn; now rewrite ?put_put, ?set_set, ?im_im.
Qed.
Lemma put_child_same t v s t' x : child t v s = Some (t', x) -> put_child v s x = v.
Proof.
  assert (FF : forall fn fts fs t' x, field_child fn fts fs = Some (t', x) -> put_field fn x fs = fs).
  { intros fn fts fs t1 y. unfold field_child. destruct (find_field fn fts) as [[fi t2]|]; [|discriminate].
    destruct (find_field fn fs) as [[fj z]|] eqn:F; [|discriminate]. intros H. inversion H; subst. now apply put_same in F. }
  intros E. destruct s as [fn|i|k|]; destruct t as [kk| | | |t|t|n t|ts|kt vt|t|si fts|st vs|t|kt t]; try discriminate E;
    destruct v as [| | | | | | | | |y|c r fs|tag c r fs|r l|r es]; try discriminate E; cbn [child put_child] in *.
  - f_equal. eapply FF. exact E.
  - destruct (find_variant vs tag); [|discriminate E]. f_equal. eapply FF. exact E.
  - destruct (nth_error l (N.to_nat i)) as [y|] eqn:F; [|discriminate E]. inversion E; subst. now rewrite set_nth_same.
  - destruct (assoc k es) as [y|] eqn:F; [|discriminate E]. inversion E; subst. now rewrite im_same.
  - now inversion E.
Qed.
Lemma seg_put v s x s' : seg (put_child v s x) s' = seg v s'.
Proof. destruct s, v; try reflexivity; destruct s'; reflexivity. Qed.
Lemma state_step_put v s x : state_step (put_child v s x) s = state_step v s.
Proof.
  assert (FF : forall fn x fs, match find_field fn (put_field fn x fs) with Some (fi, _) => f_state fi | None => false end =
    match find_field fn fs with Some (fi, _) => f_state fi | None => false end).
  { intros fn y fs. induction fs as [|[fi z] fs IH]; [reflexivity|]. cbn. destruct (fn =? f_tag fi) eqn:E; cbn; rewrite E; auto. }
  destruct s, v; try reflexivity; cbn; apply FF.
Qed.

(** Steps commute with [norm]. *)
Definition step_rt (r : rt) (v : val) (s : step) : rt :=
  match s, v with
  | SField fn, VStruct _ _ fs => match find_field fn fs with Some (fi, _) => field_rt r fi | None => r end
  | SField fn, VEnum tag _ _ fs => match find_field fn fs with Some (fi, _) => field_rt (nested r tag) fi | None => r end
  | SItem i, _ => nested r i
  | SKey k, _ => nested r k
  | _, _ => r
  end.
Lemma child_norm t v s r : child t (norm r v) s =
  match child t v s with Some (t', x) => Some (t', norm (step_rt r v s) x) | None => None end.
Proof.
  destruct s as [fn|i|k|]; destruct t as [kk| | | |t|t|n t|ts|kt vt|t|si fts|st vs|t|kt t]; try reflexivity;
    destruct v as [| | | | | | | | |y|c r0 fs|tag c r0 fs|r0 l|r0 es]; try reflexivity.
  - rewrite norm_struct. cbn [child step_rt]. unfold field_child. rewrite find_norm_fields.
    destruct (find_field fn fts) as [[fi t]|]; [|reflexivity]. destruct (find_field fn fs) as [[fj x]|]; reflexivity.
  - rewrite norm_enum. cbn [child step_rt]. destruct (find_variant vs tag) as [va|]; [|reflexivity]. unfold field_child. rewrite find_norm_fields.
    destruct (find_field fn (snd va)) as [[fi t]|]; [|reflexivity]. destruct (find_field fn fs) as [[fj x]|]; reflexivity.
  - rewrite norm_list. cbn [child step_rt]. rewrite nth_norm_items. destruct (nth_error l (N.to_nat i)); [|reflexivity].
    do 4 f_equal. lia.
  - rewrite norm_map. cbn [child step_rt]. rewrite assoc_norm_entries. destruct (assoc k es); reflexivity.
Qed.
Lemma put_child_norm t v s r t' x x' : child t v s = Some (t', x) ->
  put_child (norm r v) s (norm (step_rt r v s) x') = norm r (put_child v s x').
Proof.
  intros E. destruct s as [fn|i|k|]; destruct t as [kk| | | |t|t|n t|ts|kt vt|t|si fts|st vs|t|kt t]; try discriminate E;
    destruct v as [| | | | | | | | |y|c r0 fs|tag c r0 fs|r0 l|r0 es]; try discriminate E; cbn [child put_child] in *.
  - rewrite !norm_struct. unfold field_child in E. destruct (find_field fn fts) as [[fi t2]|]; [|discriminate E].
    cbn [step_rt put_child]. destruct (find_field fn fs) as [[fj z]|] eqn:F; [|discriminate E]. f_equal. now apply (put_norm_fields _ _ _ _ z).
  - rewrite !norm_enum. destruct (find_variant vs tag); [|discriminate E]. unfold field_child in E. destruct (find_field fn (snd p)) as [[fi t2]|]; [|discriminate E].
    cbn [step_rt put_child]. destruct (find_field fn fs) as [[fj z]|] eqn:F; [|discriminate E]. f_equal. now apply (put_norm_fields _ _ _ _ z).
  - rewrite !norm_list. cbn [step_rt put_child]. f_equal. rewrite <- set_norm_items. do 3 f_equal. lia.
  - rewrite !norm_map. cbn [step_rt put_child]. f_equal. apply im_norm_entries.
  - reflexivity.
Qed.
Lemma step_rt_norm v s r r' : step_rt r (norm r' v) s = step_rt r v s.
Proof.
  destruct s as [fn|i|k|]; destruct v as [| | | | | | | | |y|c r0 fs|tag c r0 fs|r0 l|r0 es]; try reflexivity.
  - rewrite norm_struct. cbn. rewrite find_norm_fields. destruct (find_field fn fs) as [[fi x]|]; reflexivity.
  - rewrite norm_enum. cbn. rewrite find_norm_fields. destruct (find_field fn fs) as [[fi x]|]; reflexivity.
Qed.
Lemma seg_norm v s r : seg (norm r v) s = seg v s.
Proof. destruct s, v; reflexivity. Qed.
Lemma state_step_norm v s r : state_step (norm r v) s = state_step v s.
Proof.
  destruct s as [fn|i|k|]; destruct v as [| | | | | | | | |y|c r0 fs|tag c r0 fs|r0 l|r0 es]; try reflexivity.
  - rewrite norm_struct. cbn. rewrite find_norm_fields. destruct (find_field fn fs) as [[fi x]|]; reflexivity.
  - rewrite norm_enum. cbn. rewrite find_norm_fields. destruct (find_field fn fs) as [[fi x]|]; reflexivity.
Qed.

Lemma same_refl v : same v v. Proof. reflexivity. Qed.
Lemma same_norm r v : same v (norm r v).
Proof. unfold same. now rewrite norm_norm. Qed.
Lemma same_at r v w : same v w <-> norm r v = norm r w.
Proof. unfold same. split; apply norm_same. Qed.
Lemma same_trans a b c : same a b -> same b c -> same a c.
Proof. unfold same. congruence. Qed.
Lemma same_sym a b : same a b -> same b a.
Proof. unfold same. congruence. Qed.
Lemma same_seg v w s : same v w -> seg v s = seg w s.
Proof. intros H. rewrite <- (seg_norm v s rt_default), H. apply seg_norm. Qed.
Lemma same_state_step v w s : same v w -> state_step v s = state_step w s.
Proof. intros H. rewrite <- (state_step_norm v s rt_default), H. apply state_step_norm. Qed.
Lemma same_child t v w s t' x : same v w -> child t v s = Some (t', x) ->
  exists y, child t w s = Some (t', y) /\ same x y.
Proof.
  intros H E. pose proof (child_norm t v s rt_default) as Cv. pose proof (child_norm t w s rt_default) as Cw.
  rewrite E in Cv. unfold same in H. rewrite <- H, Cv in Cw. destruct (child t w s) as [[t2 y]|]; [|discriminate Cw].
  inversion Cw as [[X Y]]. subst. exists y. split; [reflexivity|]. apply (same_at (step_rt rt_default v s)). rewrite Y. f_equal.
  rewrite <- (step_rt_norm w s _ rt_default), <- H. apply step_rt_norm.
Qed.
Lemma same_put t v w s t' x x' y' : same v w -> child t v s = Some (t', x) -> same x' y' ->
  same (put_child v s x') (put_child w s y').
Proof.
  intros H E S. destruct (same_child _ _ _ _ _ _ H E) as (y & Ew & _). unfold same.
  rewrite <- (put_child_norm _ _ _ _ _ _ _ E), <- (put_child_norm _ _ _ _ _ _ _ Ew). rewrite H. f_equal.
  rewrite <- (step_rt_norm w s _ rt_default), <- H, step_rt_norm. now apply same_at.
Qed.

(** Coherence goes to parts and back. *)
Lemma set_fields_find r fs fn fi x : set_fields r fs = fs -> find_field fn fs = Some (fi, x) -> f_state fi = true ->
  set_rt (nested r fn) x = x.
Proof.
  induction fs as [|[fj y] fs IH]; cbn; [discriminate|]. intros H F S. injection H as X Y.
  destruct (fn =? f_tag fj) eqn:E; [|now apply IH]. inversion F; subst. rewrite S in X. apply N.eqb_eq in E. subst. assumption.
Qed.
Lemma set_fields_put r fs fn x : set_fields r fs = fs ->
  (forall fi y, find_field fn fs = Some (fi, y) -> f_state fi = true -> set_rt (nested r fn) x = x) ->
  set_fields r (put_field fn x fs) = put_field fn x fs.
Proof.
  induction fs as [|[fj y] fs IH]; cbn; [reflexivity|]. intros H K. injection H as X Y. destruct (fn =? f_tag fj) eqn:E.
  - cbn. f_equal; [|exact Y]. f_equal. apply N.eqb_eq in E. subst fn. specialize (K _ _ eq_refl). destruct (f_state fj); [|reflexivity].
    now apply K.
  - cbn. rewrite X. f_equal. now apply IH.
Qed.
Lemma set_items_nth r : forall l i j x, set_items r i l = l -> nth_error l j = Some x -> set_rt (nested r (i + N.of_nat j)) x = x.
Proof.
  induction l as [|y l IH]; intros i [|j] x H E; try discriminate E; cbn in H; injection H as X Y.
  - cbn in E. inversion E; subst. replace (i + N.of_nat 0) with i by lia. assumption.
  - cbn in E. replace (i + N.of_nat (S j)) with (i + 1 + N.of_nat j) by lia. now apply IH.
Qed.
Lemma set_items_set r x : forall l i j, set_items r i l = l -> set_rt (nested r (i + N.of_nat j)) x = x ->
  set_items r i (set_nth l j x) = set_nth l j x.
Proof.
  induction l as [|y l IH]; intros i [|j] H E; try reflexivity; cbn in H; injection H as X Y; cbn.
  - replace (i + N.of_nat 0) with i in E by lia. rewrite E. f_equal. assumption.
  - replace (i + N.of_nat (S j)) with (i + 1 + N.of_nat j) in E by lia. rewrite X. f_equal. now apply IH.
Qed.
Lemma set_entries_assoc r es k x : set_entries r es = es -> assoc k es = Some x -> set_rt (nested r k) x = x.
Proof.
  induction es as [|[k' y] es IH]; cbn; [discriminate|]. intros H F. injection H as X Y.
  destruct (k =? k') eqn:E; [|now apply IH]. inversion F; subst. apply N.eqb_eq in E. subst. assumption.
Qed.
Lemma set_entries_im r es k x : set_entries r es = es -> set_rt (nested r k) x = x ->
  set_entries r (im_insert k x es) = im_insert k x es.
Proof.
  induction es as [|[k' y] es IH]; cbn; [intros _ ->; reflexivity|]. intros H K. injection H as X Y.
  destruct (k =? k') eqn:E; cbn.
  - apply N.eqb_eq in E. subst. rewrite K. f_equal. assumption.
  - rewrite X. f_equal. now apply IH.
Qed.
