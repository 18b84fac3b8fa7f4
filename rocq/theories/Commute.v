(** Entries addressed to different places do not depend on their order. *)
From Verif Require Import Base Varint WireFmt Utf8 Types Ser Spec De Log State StateSpec ValInd VarintProofs WireProofs SerProofs
  TypeProofs EqProofs DeProofs RoundTrip NormProofs LogProofs TreeProofs CohProofs HandleProofs.
From Coq Require Import Permutation.

(** ** Words of the claims *)

(** The same tree, but for the order of the keys of one map. *)
Inductive reordered : val -> val -> Prop :=
| RoSame v : reordered v v
| RoKeys r es es' : Permutation es es' -> reordered (VMap r es) (VMap r es')
| RoBox x y : reordered x y -> reordered (VBox x) (VBox y)
| RoStruct c r fs fn x y : reordered x y -> reordered (VStruct c r (put_field fn x fs)) (VStruct c r (put_field fn y fs))
| RoEnum tag c r fs fn x y : reordered x y -> reordered (VEnum tag c r (put_field fn x fs)) (VEnum tag c r (put_field fn y fs))
| RoItem r l i x y : reordered x y -> reordered (VList r (set_nth l i x)) (VList r (set_nth l i y))
| RoEntry r es k x y : reordered x y -> reordered (VMap r (im_insert k x es)) (VMap r (im_insert k y es)).

(** Something is there under a path: fields by tag, items by index, entries by key. *)
Inductive present : val -> list N -> Prop :=
| PrHere v : present v []
| PrBox x p : present x p -> present (VBox x) p
| PrStruct c r fs fn fi x p : find_field fn fs = Some (fi, x) -> present x p -> present (VStruct c r fs) (fn :: p)
| PrEnum tag c r fs fn fi x p : find_field fn fs = Some (fi, x) -> present x p -> present (VEnum tag c r fs) (tag :: fn :: p)
| PrTag tag c r fs : present (VEnum tag c r fs) [tag]
| PrItem r l i x p : nth_error l (N.to_nat i) = Some x -> present x p -> present (VList r l) (i :: p)
| PrEntry r es k x p : assoc k es = Some x -> present x p -> present (VMap r es) (k :: p).

(** A log that takes its entries in turn from two others. *)
Inductive interleaved {A} : list A -> list A -> list A -> Prop :=
| InNil : interleaved [] [] []
| InLeft a l1 l2 l : interleaved l1 l2 l -> interleaved (a :: l1) l2 (a :: l)
| InRight a l1 l2 l : interleaved l1 l2 l -> interleaved l1 (a :: l2) (a :: l).

(** ** Two calls *)

Definition swaps (f g : val -> val * res unit) (exact : Prop) (v : val) : Prop :=
  snd (f (fst (g v))) = snd (f v) /\ snd (g (fst (f v))) = snd (g v) /\
  reordered (fst (g (fst (f v)))) (fst (f (fst (g v)))) /\
  (exact -> fst (g (fst (f v))) = fst (f (fst (g v)))).

(** The first path goes through something present that the second does not lead to. *)
Definition apart (v : val) (p1 p2 : list N) : Prop := exists p s, p1 = p ++ s /\ ~ comparable p p2 /\ present v p.

Definition good (h : handler) : Prop := forall p1 k1 key1 b1 p2 k2 key2 b2 v, ~ comparable p1 p2 ->
  swaps (h p1 k1 key1 b1) (h p2 k2 key2 b2) (apart v p1 p2) v.

Lemma comp_nil_l p : comparable [] p. Proof. exists p. right. reflexivity. Qed.
Lemma comp_nil_r p : comparable p []. Proof. exists p. left. reflexivity. Qed.
Lemma comp_cons a p q : comparable p q -> comparable (a :: p) (a :: q).
Proof. intros [s [-> | ->]]; exists s; [left|right]; reflexivity. Qed.
Lemma comp_head a b p q : a <> b -> ~ comparable (a :: p) (b :: q).
Proof. intros D [s [E|E]]; inversion E; congruence. Qed.

Lemma put_comm a b x y fs : a <> b -> put_field a x (put_field b y fs) = put_field b y (put_field a x fs).
Proof.
  intros D. induction fs as [|[fi z] fs IH]; [reflexivity|]. cbn. destruct (N.eqb_spec b (f_tag fi)), (N.eqb_spec a (f_tag fi)); cbn;
    repeat match goal with |- context [?u =? ?w] => destruct (N.eqb_spec u w); try congruence end.
Qed.
Lemma set_set {A} (l : list A) : forall i x y, set_nth (set_nth l i x) i y = set_nth l i y.
Proof. induction l as [|z l IH]; intros [|i] x y; [reflexivity..|]. cbn. f_equal. apply IH. Qed.
Lemma set_comm {A} (l : list A) : forall i j x y, i <> j -> set_nth (set_nth l i x) j y = set_nth (set_nth l j y) i x.
Proof. induction l as [|z l IH]; intros [|i] [|j] x y D; try reflexivity; [congruence|]. cbn. f_equal. apply IH. congruence. Qed.
Lemma nth_set_other {A} (l : list A) : forall i j x, i <> j -> nth_error (set_nth l i x) j = nth_error l j.
Proof. induction l as [|z l IH]; intros [|i] [|j] x D; try reflexivity; [congruence|]. apply IH. congruence. Qed.
Lemma get_ins {A} k k' (x : A) es : assoc k' (im_insert k x es) = if k' =? k then Some x else assoc k' es.
Proof.
  induction es as [|[j y] es IH]; cbn; [reflexivity|]. destruct (N.eqb_spec k j) as [->|D]; cbn.
  - destruct (k' =? j); reflexivity.
  - rewrite IH. destruct (N.eqb_spec k' j) as [->|E]; [|reflexivity]. destruct (N.eqb_spec j k); [congruence|reflexivity].
Qed.
Lemma ins_ins {A} k (x y : A) es : im_insert k x (im_insert k y es) = im_insert k x es.
Proof.
  induction es as [|[j z] es IH]; cbn; [rewrite N.eqb_refl; reflexivity|].
  destruct (N.eqb_spec k j) as [->|D]; cbn; [rewrite N.eqb_refl; reflexivity|]. destruct (N.eqb_spec k j); [congruence|]. f_equal. exact IH.
Qed.
Lemma ins_comm {A} a b (x y : A) es : a <> b -> assoc a es <> None -> im_insert a x (im_insert b y es) = im_insert b y (im_insert a x es).
Proof.
  intros D. induction es as [|[j z] es IH]; cbn; [congruence|]. intros P.
  destruct (N.eqb_spec b j) as [->|B], (N.eqb_spec a j) as [->|C]; cbn;
    repeat match goal with |- context [?u =? ?w] => destruct (N.eqb_spec u w); try congruence end.
  f_equal. apply IH. exact P.
Qed.
Lemma ins_perm {A} a b (x y : A) es : a <> b -> Permutation (im_insert a x (im_insert b y es)) (im_insert b y (im_insert a x es)).
Proof.
  intros D. induction es as [|[j z] es IH]; cbn.
  - repeat match goal with |- context [?u =? ?w] => destruct (N.eqb_spec u w); try congruence end. apply perm_swap.
  - destruct (N.eqb_spec b j) as [->|B], (N.eqb_spec a j) as [->|C]; cbn;
      repeat match goal with |- context [?u =? ?w] => destruct (N.eqb_spec u w); try congruence end; try apply Permutation_refl.
    apply perm_skip. exact IH.
Qed.

Lemma apart_cons {v a b p1 p2} : apart v (a :: p1) (b :: p2) -> exists p s, p1 = p ++ s /\ present v (a :: p) /\ (a = b -> ~ comparable p p2).
Proof.
  intros (p & s & E & C & P). destruct p as [|a' p]; [destruct (C (comp_nil_l _))|]. inversion E; subst. exists p, s. split; [reflexivity|]. split; [exact P|].
  intros -> X. apply C. apply comp_cons. exact X.
Qed.

Lemma field_form hs n p k key b :
  (exists o, forall fs, handle_field hs fs n p k key b = (fs, o)) \/
  exists h : val -> val * res unit, forall fs, handle_field hs fs n p k key b =
    match find_field n fs with Some (_, x) => let '(x', o) := h x in (put_field n x' fs, o) | None => (fs, NoFuel) end.
Proof.
  unfold handle_field. destruct (find_field n hs) as [[fi h]|]; [|left; eexists; reflexivity]. destruct (f_state fi); [|left; eexists; reflexivity].
  right. exists (h p k key b). reflexivity.
Qed.

Lemma fields_swap hs : Forall (fun p : finfo * handler => good (snd p)) hs -> forall n1 p1 k1 key1 b1 n2 p2 k2 key2 b2 fs, ~ comparable (n1 :: p1) (n2 :: p2) ->
  let f fs := handle_field hs fs n1 p1 k1 key1 b1 in let g fs := handle_field hs fs n2 p2 k2 key2 b2 in
  snd (f (fst (g fs))) = snd (f fs) /\ snd (g (fst (f fs))) = snd (g fs) /\
  (fst (g (fst (f fs))) = fst (f (fst (g fs))) \/
   exists fi z x y, n1 = n2 /\ find_field n1 fs = Some (fi, z) /\ reordered x y /\ (apart z p1 p2 -> x = y) /\
     fst (g (fst (f fs))) = put_field n1 x fs /\ fst (f (fst (g fs))) = put_field n1 y fs).
Proof.
  intros G n1 p1 k1 key1 b1 n2 p2 k2 key2 b2 fs C f g. subst f g. destruct (N.eq_dec n1 n2) as [<-|D].
  - assert (C' : ~ comparable p1 p2) by (intros X; apply C, comp_cons, X). unfold handle_field. destruct (find_field n1 hs) as [[fi h]|] eqn:H; [|cbn; auto].
    destruct (f_state fi); [|cbn; auto]. destruct (find_field n1 fs) as [[fj z]|] eqn:F; [|cbn; rewrite F; cbn; auto].
    apply find_field_in in H. rewrite Forall_forall in G. specialize (G _ H p1 k1 key1 b1 p2 k2 key2 b2 z C'). cbn [snd] in G. unfold swaps in G.
    destruct (h p1 k1 key1 b1 z) as [z1 o1] eqn:E1, (h p2 k2 key2 b2 z) as [z2 o2] eqn:E2. cbn [fst snd] in *.
    rewrite (find_put_same _ z2 _ _ _ F), (find_put_same _ z1 _ _ _ F).
    destruct (h p1 k1 key1 b1 z2) as [z12 o12] eqn:E12, (h p2 k2 key2 b2 z1) as [z21 o21] eqn:E21. cbn [fst snd] in *.
    destruct G as (-> & -> & R & X). split; [reflexivity|]. split; [reflexivity|]. right. exists fj, z, z21, z12. rewrite !put_put. repeat split; auto.
  - split; [|split; [|left]];
      destruct (field_form hs n1 p1 k1 key1 b1) as [[o1 F1]|[h1 F1]], (field_form hs n2 p2 k2 key2 b2) as [[o2 F2]|[h2 F2]]; rewrite ?F1, ?F2; try reflexivity;
      repeat match goal with
      | |- context [find_field n1 fs] => destruct (find_field n1 fs) as [[fi z]|] eqn:L1
      | |- context [find_field n2 fs] => destruct (find_field n2 fs) as [[fj y]|] eqn:L2
      end; cbn [fst snd]; rewrite ?L1, ?L2; try reflexivity;
      try (destruct (h1 z) as [z1 q1] eqn:Z1); try (destruct (h2 y) as [y2 q2] eqn:Y2); cbn [fst snd];
      rewrite ?find_put_other by congruence; rewrite ?L1, ?L2, ?Z1, ?Y2; try reflexivity.
    + cbn [fst]. apply put_comm. congruence.
Qed.

Lemma swaps_still (f g : val -> val * res unit) ex v : fst (f v) = v -> fst (g v) = v -> swaps f g ex v.
Proof. intros A B. unfold swaps. rewrite ?A, ?B, ?A, ?B. repeat split; auto. constructor. Qed.

Lemma swaps_left (f g : val -> val * res unit) ex v o : f v = (v, o) -> f (fst (g v)) = (fst (g v), o) -> swaps f g ex v.
Proof. intros A B. unfold swaps. rewrite A, B. cbn [fst snd]. repeat split; auto. constructor. Qed.
Lemma swaps_right (f g : val -> val * res unit) ex v o : g v = (v, o) -> g (fst (f v)) = (fst (f v), o) -> swaps f g ex v.
Proof. intros A B. unfold swaps. rewrite A, B. cbn [fst snd]. repeat split; auto. constructor. Qed.
Lemma enum_other m st vs n p k key b tag c r fs : tag <> n ->
  handle m (TEnum st vs) (n :: p) k key b (VEnum tag c (Some r) fs) = (VEnum tag c (Some r) fs, Err InvalidData).
Proof. intros D. rewrite handle_enum. destruct (find_variant vs n); [|reflexivity]. destruct (N.eqb_spec tag n); [congruence|reflexivity]. Qed.
Lemma enum_fields m st vs n p k key b tag c r fs : exists fs',
  fst (handle m (TEnum st vs) (n :: p) k key b (VEnum tag c (Some r) fs)) = VEnum tag c (Some r) fs'.
Proof.
  rewrite handle_enum. destruct (find_variant vs n); [|eexists; reflexivity]. destruct (tag =? n); [|eexists; reflexivity].
  destruct p; [eexists; reflexivity|]. destruct (handle_field _ _ _ _ _ _ _). eexists. reflexivity.
Qed.

Lemma good_box h : good h -> good (fun path kind key bs v => match v with VBox x => let '(x', o) := h path kind key bs x in (VBox x', o) | _ => (v, NoFuel) end).
Proof.
  intros G p1 k1 key1 b1 p2 k2 key2 b2 v C. destruct v; try (apply swaps_still; reflexivity).
  specialize (G p1 k1 key1 b1 p2 k2 key2 b2 v C). unfold swaps in *.
  destruct (h p1 k1 key1 b1 v) as [z1 o1], (h p2 k2 key2 b2 v) as [z2 o2]. cbn [fst snd] in *.
  destruct (h p1 k1 key1 b1 z2) as [z12 o12], (h p2 k2 key2 b2 z1) as [z21 o21]. cbn [fst snd] in *. destruct G as (-> & -> & R & X).
  split; [reflexivity|]. split; [reflexivity|]. split; [constructor; exact R|]. intros (p & s & -> & D & P). f_equal. apply X. exists p, s. split; [reflexivity|].
  split; [exact D|]. inversion P; subst; [destruct (D (comp_nil_l _))|assumption].
Qed.

Lemma hfields_good m fts : Forall (fun p : finfo * ty => good (handle m (snd p))) fts -> Forall (fun p : finfo * handler => good (snd p)) (hfields m fts).
Proof. intros F. unfold hfields. apply Forall_map. eapply Forall_impl; [|exact F]. intros [fi t] H. exact H. Qed.

Lemma handle_list m t r l i path kind key bs : handle m (TList t) (i :: path) kind key bs (VList r l) =
  match nth_error l (N.to_nat i) with
  | Some x => let '(x', o) := handle m t path kind key bs x in (VList r (set_nth l (N.to_nat i) x'), o)
  | None => (VList r l, Err InvalidData)
  end.
Proof. destruct kind; reflexivity. Qed.

(** What an entry below a map does with its key. *)
Definition at_key (m : mode) (t : ty) (r : rt) (k : N) (path : list N) (kind : ekind) (key : option N) (bs : bytes) (old : option val) : option val * res unit :=
  match old with
  | Some x => let '(x', o) := handle m t path kind key bs x in (Some x', o)
  | None =>
      match kind, path with
      | KUpdate, [] => match merge m t (dflt t (nested r k)) bs with
                       | (x, Ok _) => (Some x, Ok tt)
                       | (_, Err e) => (None, Err e) | (_, Panic) => (None, Panic) | (_, NoFuel) => (None, NoFuel)
                       end
      | _, _ => (None, Err InvalidData)
      end
  end.
Definition put_key (k : N) (x : option val) (es : list (N * val)) := match x with Some x => im_insert k x es | None => es end.

Lemma handle_map m kk t r es k path kind key bs : handle m (TMap kk t) (k :: path) kind key bs (VMap r es) =
  let '(x, o) := at_key m t r k path kind key bs (assoc k es) in (VMap r (put_key k x es), o).
Proof.
  unfold at_key. destruct kind; cbn [handle]; destruct (assoc k es) as [x|];
    try (destruct (handle m t path _ key bs x) as [x' o]; reflexivity); try reflexivity.
  destruct path; [|reflexivity]. destruct (merge _ _ _ _) as [x [u|e| |]]; reflexivity.
Qed.

Lemma get_put k k' x es : k <> k' -> assoc k' (put_key k x es) = assoc k' es.
Proof. intros D. destruct x; [|reflexivity]. cbn. rewrite get_ins. destruct (N.eqb_spec k' k); [congruence|reflexivity]. Qed.

Lemma handle_swaps m t : good (handle m t).
Proof.
  induction t as [k| | | |t IH|t IH|n t IH|ts IH|k t IHk IHt|t IH|si fts IH|st vs IH|t IH|kk t IH] using ty_ind'; intros p1 k1 key1 b1 p2 k2 key2 b2 v C;
    try (apply swaps_still; destruct v; reflexivity).
  1,2: (destruct p1; [destruct (C (comp_nil_l _))|]); (destruct p2; [destruct (C (comp_nil_r _))|]); apply swaps_still; destruct v; reflexivity.
  - pose proof (good_box _ IH p1 k1 key1 b1 p2 k2 key2 b2 v C) as H. destruct v; exact H || (apply swaps_still; reflexivity).
  - destruct p1 as [|n1 p1]; [destruct (C (comp_nil_l _))|]. destruct p2 as [|n2 p2]; [destruct (C (comp_nil_r _))|].
    destruct v as [| | | | | | | | | |c [r|] fs| | |]; try (apply swaps_still; reflexivity).
    destruct (fields_swap _ (hfields_good m fts IH) n1 p1 k1 key1 b1 n2 p2 k2 key2 b2 fs C) as (A & B & D).
    unfold swaps. rewrite !handle_struct.
    destruct (handle_field (hfields m fts) fs n1 p1 k1 key1 b1) as [f1 o1] eqn:E1, (handle_field (hfields m fts) fs n2 p2 k2 key2 b2) as [f2 o2] eqn:E2.
    cbn [fst snd] in *. rewrite !handle_struct.
    destruct (handle_field (hfields m fts) f2 n1 p1 k1 key1 b1) as [f12 o12], (handle_field (hfields m fts) f1 n2 p2 k2 key2 b2) as [f21 o21].
    cbn [fst snd] in *. split; [exact A|]. split; [exact B|]. destruct D as [->|(fi & z & x & y & <- & F & R & X & -> & ->)]; [split; [constructor|auto]|].
    split; [constructor; exact R|]. intros P. destruct (apart_cons P) as (p & s & -> & Q & N). rewrite X; [reflexivity|].
    exists p, s. split; [reflexivity|]. split; [auto|]. inversion Q; subst. congruence.
  - destruct p1 as [|n1 p1]; [destruct (C (comp_nil_l _))|]. destruct p2 as [|n2 p2]; [destruct (C (comp_nil_r _))|].
    destruct v as [| | | | | | | | | | |tag c [r|] fs| |]; try (apply swaps_still; reflexivity).
    destruct (N.eq_dec tag n1) as [->|T1];
      [|apply swaps_left with (o := Err InvalidData); [apply enum_other; exact T1|destruct (enum_fields m st vs n2 p2 k2 key2 b2 tag c r fs) as [fs' ->]; apply enum_other; exact T1]].
    destruct (N.eq_dec n1 n2) as [<-|T2];
      [|apply swaps_right with (o := Err InvalidData); [apply enum_other; exact T2|destruct (enum_fields m st vs n1 p1 k1 key1 b1 n1 c r fs) as [fs' ->]; apply enum_other; exact T2]].
    destruct (find_variant vs n1) as [va|] eqn:V1; [|apply swaps_still; rewrite handle_enum, V1; reflexivity].
    assert (C1 : ~ comparable p1 p2) by (intros X; apply C, comp_cons, X).
    destruct p1 as [|q1 p1]; [destruct (C1 (comp_nil_l _))|]. destruct p2 as [|q2 p2]; [destruct (C1 (comp_nil_r _))|].
    assert (IV : Forall (fun p : finfo * ty => good (handle m (snd p))) (snd va)).
    { apply find_variant_in in V1. destruct V1 as [V1 _]. rewrite Forall_forall in IH. exact (IH _ V1). }
    destruct (fields_swap _ (hfields_good m (snd va) IV) q1 p1 k1 key1 b1 q2 p2 k2 key2 b2 fs C1) as (A & B & D).
    unfold swaps. rewrite !handle_enum, V1, N.eqb_refl.
    destruct (handle_field (hfields m (snd va)) fs q1 p1 k1 key1 b1) as [f1 o1] eqn:E1, (handle_field (hfields m (snd va)) fs q2 p2 k2 key2 b2) as [f2 o2] eqn:E2.
    cbn [fst snd] in *. rewrite !handle_enum, V1, N.eqb_refl.
    destruct (handle_field (hfields m (snd va)) f2 q1 p1 k1 key1 b1) as [f12 o12], (handle_field (hfields m (snd va)) f1 q2 p2 k2 key2 b2) as [f21 o21].
    cbn [fst snd] in *. split; [exact A|]. split; [exact B|]. destruct D as [->|(fi & z & x & y & <- & F & R & X & -> & ->)]; [split; [constructor|auto]|].
    split; [constructor; exact R|]. intros P. destruct (apart_cons P) as (p & s & E & Q & N). specialize (N eq_refl).
    destruct p as [|q p]; [destruct (N (comp_nil_l _))|]. inversion E; subst. rewrite X; [reflexivity|].
    exists p, s. split; [reflexivity|]. split; [intros Y; apply N, comp_cons, Y|]. inversion Q; subst. congruence.
  - destruct p1 as [|n1 p1]; [destruct (C (comp_nil_l _))|]. destruct p2 as [|n2 p2]; [destruct (C (comp_nil_r _))|].
    destruct v as [| | | | | | | | | | | |r l|]; try (apply swaps_still; reflexivity).
    destruct (N.eq_dec n1 n2) as [<-|D].
    + assert (C1 : ~ comparable p1 p2) by (intros X; apply C, comp_cons, X). unfold swaps. rewrite !handle_list.
      destruct (nth_error l (N.to_nat n1)) as [z|] eqn:L; [|cbn [fst snd]; rewrite !handle_list, L; repeat split; auto; constructor].
      specialize (IH p1 k1 key1 b1 p2 k2 key2 b2 z C1). unfold swaps in IH.
      destruct (handle m t p1 k1 key1 b1 z) as [z1 o1] eqn:E1, (handle m t p2 k2 key2 b2 z) as [z2 o2] eqn:E2. cbn [fst snd] in *.
      rewrite !handle_list, (nth_set_same _ _ z1 _ L), (nth_set_same _ _ z2 _ L).
      destruct (handle m t p1 k1 key1 b1 z2) as [z12 o12], (handle m t p2 k2 key2 b2 z1) as [z21 o21]. cbn [fst snd] in *. rewrite !set_set.
      destruct IH as (A & B & R & X). split; [exact A|]. split; [exact B|]. split; [constructor; exact R|].
      intros P. destruct (apart_cons P) as (p & s & -> & Q & N). rewrite X; [reflexivity|].
      exists p, s. split; [reflexivity|]. split; [auto|]. inversion Q; subst. congruence.
    + assert (D' : N.to_nat n1 <> N.to_nat n2) by (intros X; apply N2Nat.inj in X; congruence).
      unfold swaps. rewrite !handle_list. destruct (nth_error l (N.to_nat n1)) as [z|] eqn:L1, (nth_error l (N.to_nat n2)) as [y|] eqn:L2;
        try (destruct (handle m t p1 k1 key1 b1 z) as [z1 o1] eqn:E1); try (destruct (handle m t p2 k2 key2 b2 y) as [y2 o2] eqn:E2); cbn [fst snd];
        rewrite !handle_list, ?nth_set_other by congruence; rewrite ?L1, ?L2, ?E1, ?E2; cbn [fst snd]; try (repeat split; auto; constructor; fail).
      rewrite (set_comm l _ _ z1 y2 D'). repeat split; auto; constructor.
  - destruct p1 as [|n1 p1]; [destruct (C (comp_nil_l _))|]. destruct p2 as [|n2 p2]; [destruct (C (comp_nil_r _))|].
    destruct v as [| | | | | | | | | | | | |r es]; try (apply swaps_still; reflexivity).
    destruct (N.eq_dec n1 n2) as [<-|D].
    + assert (C1 : ~ comparable p1 p2) by (intros X; apply C, comp_cons, X).
      unfold swaps. rewrite !handle_map. unfold at_key. destruct (assoc n1 es) as [z|] eqn:L.
      * specialize (IH p1 k1 key1 b1 p2 k2 key2 b2 z C1). unfold swaps in IH.
        destruct (handle m t p1 k1 key1 b1 z) as [z1 o1] eqn:E1, (handle m t p2 k2 key2 b2 z) as [z2 o2] eqn:E2. cbn [fst snd put_key] in *.
        rewrite !handle_map, !get_ins, N.eqb_refl. unfold at_key.
        destruct (handle m t p1 k1 key1 b1 z2) as [z12 o12], (handle m t p2 k2 key2 b2 z1) as [z21 o21]. cbn [fst snd put_key] in *. rewrite !ins_ins.
        destruct IH as (A & B & R & X). split; [exact A|]. split; [exact B|]. split; [constructor; exact R|].
        intros P. destruct (apart_cons P) as (p & s & -> & Q & N). rewrite X; [reflexivity|].
        exists p, s. split; [reflexivity|]. split; [auto|]. inversion Q; subst. congruence.
      * destruct p1 as [|q1 p1]; [destruct (C1 (comp_nil_l _))|]. destruct p2 as [|q2 p2]; [destruct (C1 (comp_nil_r _))|].
        destruct k1, k2; cbn [fst snd put_key]; rewrite !handle_map, L; repeat split; auto; constructor.
    + unfold swaps. rewrite !handle_map.
      destruct (at_key m t r n1 p1 k1 key1 b1 (assoc n1 es)) as [x1 o1] eqn:E1, (at_key m t r n2 p2 k2 key2 b2 (assoc n2 es)) as [x2 o2] eqn:E2. cbn [fst snd].
      rewrite !handle_map, !get_put by congruence. rewrite E1, E2. cbn [fst snd]. split; [reflexivity|]. split; [reflexivity|]. split.
      * constructor. destruct x1, x2; cbn [put_key]; try apply Permutation_refl. apply ins_perm. congruence.
      * intros P. f_equal. destruct (apart_cons P) as (p & s & -> & Q & _). destruct x1, x2; cbn [put_key]; try reflexivity.
        symmetry. apply ins_comm; [exact D|]. inversion Q; subst. congruence.
Qed.

(** ** What is there stays *)

(** A path is not above another. *)
Definition not_above (r p : list N) : Prop := forall a s, p <> r ++ a :: s.

Lemma not_above_cons a r p : not_above (a :: r) (a :: p) -> not_above r p.
Proof. intros H b s E. apply (H b s). cbn. congruence. Qed.
Lemma not_above_nil p : not_above [] p -> p = [].
Proof. intros H. destruct p as [|a p]; [reflexivity|]. destruct (H a p eq_refl). Qed.

Definition stays (h : handler) : Prop := forall r k key b v p, not_above r p -> present v p -> present (fst (h r k key b v)) p.

Lemma fields_stay hs : Forall (fun p : finfo * handler => stays (snd p)) hs -> forall n r k key b fs n' p fi x, not_above (n :: r) (n' :: p) ->
  find_field n' fs = Some (fi, x) -> present x p ->
  exists x', find_field n' (fst (handle_field hs fs n r k key b)) = Some (fi, x') /\ present x' p.
Proof.
  intros G n r k key b fs n' p fi x A F P. unfold handle_field. destruct (find_field n hs) as [[fj h]|] eqn:H; [|exists x; auto].
  destruct (f_state fj); [|exists x; auto]. destruct (find_field n fs) as [[fk y]|] eqn:Y; [|exists x; auto].
  destruct (h r k key b y) as [y' o] eqn:E. cbn [fst]. destruct (N.eq_dec n n') as [<-|D].
  - rewrite F in Y. inversion Y; subst. rewrite (find_put_same _ y' _ _ _ F). exists y'. split; [reflexivity|].
    apply find_field_in in H. rewrite Forall_forall in G. specialize (G _ H r k key b y p (not_above_cons _ _ _ A) P). cbn [snd] in G. rewrite E in G. exact G.
  - rewrite find_put_other by exact D. exists x. auto.
Qed.

Lemma hfields_stay m fts : Forall (fun p : finfo * ty => stays (handle m (snd p))) fts -> Forall (fun p : finfo * handler => stays (snd p)) (hfields m fts).
Proof. intros F. unfold hfields. apply Forall_map. eapply Forall_impl; [|exact F]. intros [fi t] H. exact H. Qed.

Lemma handle_stays m t : stays (handle m t).
Proof.
  induction t as [k| | | |t IH|t IH|n t IH|ts IH|k t IHk IHt|t IH|si fts IH|st vs IH|t IH|kk t IH] using ty_ind'; intros r k0 key b v p A P;
    try (destruct v; exact P); (destruct p as [|a p]; [constructor|]); (destruct r as [|n0 q]; [discriminate (not_above_nil _ A)| ]).
  - destruct v; exact P.
  - destruct v; exact P.
  - destruct v; try exact P. cbn [handle]. assert (P' : present v (a :: p)) by (inversion P; subst; assumption).
    specialize (IH (n0 :: q) k0 key b v (a :: p) A P').
    destruct (handle m t (n0 :: q) k0 key b v) as [x' o]. constructor. exact IH.
  - destruct v as [| | | | | | | | | |c [r|] fs| | |]; try exact P. rewrite handle_struct. inversion P as [|? ? ?|? ? ? ? fi x ? F0 P0| | | |]; subst.
    destruct (fields_stay _ (hfields_stay m fts IH) n0 q k0 key b fs a p _ _ A F0 P0) as (x' & F & Q).
    destruct (handle_field (hfields m fts) fs n0 q k0 key b) as [fs' o]. cbn [fst] in *. econstructor; eassumption.
  - destruct v as [| | | | | | | | | | |tag c [r|] fs| |]; try exact P. rewrite handle_enum. destruct (find_variant vs n0) as [va|] eqn:V; [|exact P].
    destruct (N.eqb_spec tag n0) as [->|]; [|exact P]. destruct q as [|n1 q]; [exact P|].
    apply find_variant_in in V. destruct V as [V _]. rewrite Forall_forall in IH. specialize (IH _ V).
    inversion P as [|? ? ?| |? ? ? ? ? fi x ? F0 P0| | |]; subst.
    + apply not_above_cons in A. destruct (fields_stay _ (hfields_stay m _ IH) n1 q k0 key b fs _ _ _ _ A F0 P0) as (x' & F & Q).
      destruct (handle_field (hfields m (snd va)) fs n1 q k0 key b) as [fs' o]. cbn [fst] in *. econstructor; eassumption.
    + destruct (handle_field (hfields m (snd va)) fs n1 q k0 key b) as [fs' o]. constructor.
  - destruct v as [| | | | | | | | | | | |r l|]; try exact P. rewrite handle_list. destruct (nth_error l (N.to_nat n0)) as [x|] eqn:L; [|exact P].
    inversion P as [|? ? ?| | | |? ? ? x0 ? F0 P0|]; subst. destruct (N.eq_dec n0 a) as [<-|D].
    + assert (x0 = x) by congruence. subst x0. specialize (IH q k0 key b x p (not_above_cons _ _ _ A) P0).
      destruct (handle m t q k0 key b x) as [x' o]. cbn [fst] in *. econstructor; [apply (nth_set_same _ _ _ _ L)|exact IH].
    + destruct (handle m t q k0 key b x) as [x' o]. cbn [fst]. econstructor; [|exact P0]. rewrite nth_set_other; [exact F0|].
      intros X. apply N2Nat.inj in X. congruence.
  - destruct v as [| | | | | | | | | | | | |r es]; try exact P. rewrite handle_map. inversion P as [|? ? ?| | | | |? ? ? x ? F0 P0]; subst. destruct (N.eq_dec n0 a) as [<-|D].
    + rewrite F0. unfold at_key. specialize (IH q k0 key b x p (not_above_cons _ _ _ A) P0).
      destruct (handle m t q k0 key b x) as [x' o]. cbn [fst put_key] in *. econstructor; [|exact IH]. rewrite get_ins, N.eqb_refl. reflexivity.
    + destruct (at_key _ _ _ _ _ _ _ _ _) as [y o]. cbn [fst]. econstructor; [|exact P0]. rewrite get_put by exact D. exact F0.
Qed.

(** ** Trees with reordered maps are equal *)

Lemma eq_put ts : forall fs fn x y, wt_fields ts (put_field fn x fs) = true -> wt_fields ts (put_field fn y fs) = true ->
  (forall t, wt t x = true -> wt t y = true -> veqb x y = true) -> eq_fields (put_field fn x fs) (put_field fn y fs) = true.
Proof.
  induction ts as [|[fi t] ts IH]; intros [|[fj z] fs] fn x y Wx Wy E; try reflexivity;
    [cbn in Wx; destruct (fn =? f_tag fj); discriminate Wx|].
  cbn [put_field] in *. assert (Rf : forall u, wt_fields ts u = true -> eq_fields u u = true).
  { clear. induction ts as [|[fi t] ts IH]; intros [|[fj z] u] W; try discriminate W; [reflexivity|]. cbn [wt_fields] in W. bprop. cbn [eq_fields].
    rewrite IH by assumption. destruct (veqb_equiv t) as (R & _). rewrite R by assumption. destruct (f_eq fj); reflexivity. }
  destruct (fn =? f_tag fj); cbn [wt_fields eq_fields] in *; bprop.
  - rewrite (E t), Rf by assumption. destruct (f_eq fj); reflexivity.
  - rewrite IH by assumption. destruct (veqb_equiv t) as (R & _). rewrite R by assumption. destruct (f_eq fj); reflexivity.
Qed.

Lemma eq_set t l : forall i x y, forallb (wt t) (set_nth l i x) = true -> forallb (wt t) (set_nth l i y) = true ->
  (wt t x = true -> wt t y = true -> veqb x y = true) -> eq_items (set_nth l i x) (set_nth l i y) = true.
Proof.
  assert (Rf : forall u, forallb (wt t) u = true -> eq_items u u = true).
  { induction u as [|z u IH]; intros W; [reflexivity|]. cbn in W. bprop. cbn [eq_items]. rewrite IH by assumption. destruct (veqb_equiv t) as (R & _). rewrite R by assumption. reflexivity. }
  induction l as [|z l IH]; intros [|i] x y Wx Wy E; try reflexivity; cbn [set_nth forallb] in *; bprop; cbn [eq_items].
  - rewrite E, Rf by assumption. reflexivity.
  - rewrite IH by assumption. destruct (veqb_equiv t) as (R & _). rewrite R by assumption. reflexivity.
Qed.

Lemma ins_in {A} k (x y : A) es e : In e (im_insert k x es) -> e = (k, x) /\ In (k, y) (im_insert k y es) \/ In e (im_insert k y es).
Proof.
  induction es as [|[j z] es IH]; cbn; [intros [<-|[]]; auto|]. destruct (N.eqb_spec k j) as [->|D]; cbn.
  - intros [<-|I]; auto.
  - intros [<-|I]; [auto|]. destruct (IH I) as [[-> ?]|?]; auto.
Qed.

Lemma reordered_eq a b : reordered a b -> forall t, wt t a = true -> wt t b = true -> veqb a b = true.
Proof.
  induction 1 as [v|r es es' P|x y _ IH|c r fs fn x y _ IH|tag c r fs fn x y _ IH|r l i x y _ IH|r es k x y _ IH]; intros t Wa Wb.
  - destruct (veqb_equiv t) as (R & _). exact (R _ Wa).
  - destruct t; try discriminate Wa. rewrite veqb_map_eq. cbn [wt] in *. bprop.
    apply (map_eqb_iff N.eqb veqb (fun _ => True) (fun v => wt t v = true) N_equiv).
    + apply wt_map_ok. assumption.
    + apply wt_map_ok. assumption.
    + rewrite <- nodup_mdistinct. assumption.
    + split; [apply Permutation_length; exact P|]. intros e I. exists e. split; [eapply Permutation_in; eassumption|]. split; [apply N.eqb_refl|].
      destruct (veqb_equiv t) as (R & _). apply R.
      match goal with X : forallb _ es = true |- _ => rewrite forallb_forall in X; specialize (X _ I) end. bprop. assumption.
  - destruct t; try discriminate Wa. exact (IH _ Wa Wb).
  - destruct t; try discriminate Wa. rewrite wt_struct_eq in *. bprop. rewrite veqb_struct. now apply (eq_put fs0).
  - destruct t as [| | | | | | | | | | |st vs| |]; try discriminate Wa. rewrite wt_enum_eq in *. bprop. rewrite veqb_enum, N.eqb_refl.
    destruct (find_variant vs tag) as [[[tg c'] ts]|]; [|discriminate]. bprop. now apply (eq_put ts).
  - destruct t; try discriminate Wa. rewrite veqb_list. cbn [wt] in *. apply (eq_set t); [exact Wa|exact Wb|apply IH].
  - destruct t; try discriminate Wa. rewrite veqb_map_eq. cbn [wt] in *. bprop.
    assert (L : length (im_insert k x es) = length (im_insert k y es)).
    { clear. induction es as [|[j z] es IH]; [reflexivity|]. cbn. destruct (k =? j); [reflexivity|]. cbn. congruence. }
    assert (Ix : forall w, In (k, w) (im_insert k w es)).
    { clear. intros w. induction es as [|[j z] es IH]; [left; reflexivity|]. cbn. destruct (N.eqb_spec k j) as [->|]; [left; reflexivity|right; exact IH]. }
    repeat match goal with X : forallb _ _ = true |- _ => pose proof (wt_map_ok _ _ X); rewrite forallb_forall in X end.
    apply (map_eqb_iff N.eqb veqb (fun _ => True) (fun v => wt t v = true) N_equiv); [assumption|assumption|rewrite <- nodup_mdistinct; assumption|].
    split; [exact L|]. intros e I. destruct (ins_in k x y es e I) as [[-> J]|J].
    + exists (k, y). split; [exact J|]. split; [apply N.eqb_refl|]. cbn [snd].
      match goal with X : forall e, In e (im_insert k x es) -> _, Y : forall e, In e (im_insert k y es) -> _ |- _ => specialize (X _ (Ix x)); specialize (Y _ (Ix y)) end.
      cbn [fst snd] in *. bprop. now apply (IH t).
    + exists e. split; [exact J|]. split; [apply N.eqb_refl|]. destruct (veqb_equiv t) as (R & _). apply R.
      match goal with X : forall e, In e (im_insert k x es) -> _ |- _ => specialize (X _ I) end. bprop. assumption.
Qed.
