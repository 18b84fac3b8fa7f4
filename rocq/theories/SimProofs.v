(** Decoding and replay depend on the contents of a value only, not on the runtimes in it. *)
From Verif Require Import Base Varint WireFmt Utf8 Types Ser Spec De Log State StateSpec Coll ValInd VarintProofs WireProofs SerProofs TypeProofs
  EqProofs DeProofs RoundTrip MergeProofs NormProofs LogProofs TreeProofs CohProofs HandleProofs OpProofs ExecProofs ReplayProofs.

Definition rt_pair (r r' : option rt) : Prop := match r, r' with Some _, Some _ | None, None => True | _, _ => False end.

(** Equal but for runtimes; enums sit below a root. *)
Inductive sim : val -> val -> Prop :=
| SInt k z : sim (VInt k z) (VInt k z)
| SBool b : sim (VBool b) (VBool b)
| SStr s : sim (VStr s) (VStr s)
| SBytes s : sim (VBytes s) (VBytes s)
| SNone : sim (VOpt None) (VOpt None)
| SSome x y : sim x y -> sim (VOpt (Some x)) (VOpt (Some y))
| SVec l l' : Forall2 sim l l' -> sim (VVec l) (VVec l')
| SArr l l' : Forall2 sim l l' -> sim (VArr l) (VArr l')
| STup l l' : Forall2 sim l l' -> sim (VTup l) (VTup l')
| SHash l l' : Forall2 (fun e e' => sim (fst e) (fst e') /\ sim (snd e) (snd e')) l l' -> sim (VHash l) (VHash l')
| SBoxed x y : sim x y -> sim (VBox x) (VBox y)
| SStruct c r r' fs fs' : rt_pair r r' -> Forall2 (fun p q => fst p = fst q /\ sim (snd p) (snd q)) fs fs' -> sim (VStruct c r fs) (VStruct c r' fs')
| SEnum tag c r r' fs fs' : rt_pair r r' -> rt_below r = true -> rt_below r' = true ->
    Forall2 (fun p q => fst p = fst q /\ sim (snd p) (snd q)) fs fs' -> sim (VEnum tag c r fs) (VEnum tag c r' fs')
| SLst r r' l l' : Forall2 sim l l' -> sim (VList r l) (VList r' l')
| SMp r r' es es' : Forall2 (fun p q => fst p = fst q /\ sim (snd p) (snd q)) es es' -> sim (VMap r es) (VMap r' es').
Notation fsim := (Forall2 (fun p q : finfo * val => fst p = fst q /\ sim (snd p) (snd q))).
Notation esim := (Forall2 (fun p q : N * val => fst p = fst q /\ sim (snd p) (snd q))).
Notation hsim := (Forall2 (fun e e' : val * val => sim (fst e) (fst e') /\ sim (snd e) (snd e'))).

(** ** Mergers and handlers that respect [sim] *)
Definition agree {S A} (R : S -> S -> Prop) (a b : S * res A) : Prop := R (fst a) (fst b) /\ snd a = snd b.
Definition respects (mg : merger) : Prop := forall v w bs, sim v w -> agree sim (mg v bs) (mg w bs).

Lemma agree_try {S A} (R : S -> S -> Prop) s s' (x : res A) k k' : R s s' -> (forall a, agree R (k a) (k' a)) -> agree R (try s x k) (try s' x k').
Proof. intros H K. destruct x; cbn [try]; try (split; [exact H|reflexivity]). apply K. Qed.
Lemma loop_agree {S} (R : S -> S -> Prop) step step' : (forall s s' bs, R s s' -> agree R (step s bs) (step' s' bs)) ->
  forall f s s' bs, R s s' -> agree R (loop f step s bs) (loop f step' s' bs).
Proof.
  intros H. induction f as [|f IH]; intros s s' bs Rs; destruct bs as [|b bs]; cbn [loop]; try (split; [exact Rs|reflexivity]).
  specialize (H s s' (b :: bs) Rs). destruct (step s (b :: bs)) as [s1 r1], (step' s' (b :: bs)) as [s2 r2]. destruct H as [H1 H2]. cbn [fst snd] in *. subst r2.
  apply agree_try; [exact H1|]. intros rest. now apply IH.
Qed.
Lemma run_agree {S} (R : S -> S -> Prop) step step' s s' bs : (forall s s' bs, R s s' -> agree R (step s bs) (step' s' bs)) -> R s s' ->
  agree R (run step s bs) (run step' s' bs).
Proof. intros H Rs. now apply loop_agree. Qed.
Lemma agree_map {S T A} (R : S -> S -> Prop) (Q : T -> T -> Prop) (f g : S -> T) (a b : S * res A) : (forall x y, R x y -> Q (f x) (g y)) -> agree R a b ->
  agree Q (let '(x, o) := a in (f x, o)) (let '(x, o) := b in (g x, o)).
Proof. destruct a, b. intros H [X Y]. cbn in *. subst. split; [now apply H|reflexivity]. Qed.

Lemma merge_nested_agree m tw mg w v v' bs : respects mg -> sim v v' -> agree sim (merge_nested m tw mg w v bs) (merge_nested m tw mg w v' bs).
Proof.
  intros G H. unfold merge_nested. destruct (negb (wtype_eqb w tw)); [split; [exact H|reflexivity]|]. destruct w; [now apply G|].
  apply agree_try; [exact H|]. intros [sub after]. destruct (G v v' sub H) as [X Y]. destruct (mg v sub), (mg v' sub). cbn in *. subst. split; [exact X|reflexivity].
Qed.
(** The results of [de_nested] on two defaults. *)
Definition rsim {A} (R : val -> val -> Prop) (x y : res (val * A)) : Prop :=
  match x, y with
  | Ok (a, r), Ok (b, r') => R a b /\ r = r'
  | Err e, Err e' => e = e' | Panic, Panic | NoFuel, NoFuel => True
  | _, _ => False
  end.
Lemma de_nested_sim m tw mg d d' bs : respects mg -> sim d d' -> rsim sim (de_nested m tw mg d bs) (de_nested m tw mg d' bs).
Proof.
  intros G H. unfold de_nested. destruct (merge_nested_agree m tw mg tw d d' bs G H) as [X Y].
  destruct (merge_nested m tw mg tw d bs) as [x r], (merge_nested m tw mg tw d' bs) as [y r']. cbn in *. subst. destruct r'; cbn; auto.
Qed.

Lemma fields_dflt fts : Forall (fun p => forall r r', sim (dflt (snd p) r) (dflt (snd p) r')) fts -> forall r r', fsim (dflt_fields r fts) (dflt_fields r' fts).
Proof. induction 1 as [|[fi t] fts H _ IH]; intros r r'; [constructor|]. cbn. constructor; [split; [reflexivity|apply H]|apply IH]. Qed.
Lemma dflt_sim t : forall r r', sim (dflt t r) (dflt t r').
Proof.
  induction t as [k| | | |t IH|t IH|n t IH|ts IH|k t IHk IHt|t IH|si fs IH|st vs IH|t IH|k t IH] using ty_ind'; intros r r'; try (cbn; constructor; auto; fail).
  - cbn. constructor. induction n; cbn; constructor; auto.
  - cbn. constructor. induction IH; cbn; constructor; auto.
  - cbn [dflt]. constructor; [now destruct (s_state si)|]. now apply fields_dflt.
  - cbn [dflt]. induction IH as [|[[tag c] fts] vs H _ IHvs]; [constructor|]. destruct (tag =? 0); [|exact IHvs].
    constructor; try (destruct st; reflexivity || exact I). now apply fields_dflt.
Qed.
Lemma variant_sim st va r r' : sim (variant_ctor st va r) (variant_ctor st va r').
Proof.
  destruct va as [[tag c] fts]. cbn [variant_ctor]. constructor; try (destruct st; reflexivity || exact I). apply fields_dflt. apply Forall_forall. intros p _. apply dflt_sim.
Qed.

Lemma merge_field_agree m fts : Forall (fun p => respects (merge m (snd p))) fts -> forall fs fs' fn w bs, fsim fs fs' ->
  agree (Forall2 (fun p q : finfo * val => fst p = fst q /\ sim (snd p) (snd q))) (merge_field m (fmergers m fts) fs fn w bs) (merge_field m (fmergers m fts) fs' fn w bs).
Proof.
  induction 1 as [|[fi t] fts H _ IH]; intros fs fs' fn w bs F; cbn [fmergers map merge_field].
  - inversion F; subst; split; auto.
  - inversion F as [|[fa x] [fb y] l l' [E X] F']; subst; [split; auto|]. cbn [fst snd] in *. subst fb. destruct (fn =? f_tag fi).
    + destruct (merge_nested_agree m (wty t) (merge m t) w x y bs H X) as [A B]. destruct (merge_nested m (wty t) (merge m t) w x bs), (merge_nested m (wty t) (merge m t) w y bs).
      cbn in *. subst. split; [constructor; auto|reflexivity].
    + destruct (IH l l' fn w bs F') as [A B]. fold (fmergers m fts). destruct (merge_field m (fmergers m fts) l fn w bs), (merge_field m (fmergers m fts) l' fn w bs).
      cbn in *. subst. split; [constructor; auto|reflexivity].
Qed.
Lemma struct_agree m fts fs fs' bs : Forall (fun p => respects (merge m (snd p))) fts -> fsim fs fs' ->
  agree (Forall2 (fun p q : finfo * val => fst p = fst q /\ sim (snd p) (snd q))) (run (struct_step m (fmergers m fts)) fs bs) (run (struct_step m (fmergers m fts)) fs' bs).
Proof.
  intros H F. apply run_agree; [|exact F]. intros s s' b Fs. unfold struct_step. apply agree_try; [exact Fs|]. intros [[fn w] rest]. now apply merge_field_agree.
Qed.

Lemma sim_norm a : forall b, sim a b -> forall r, norm r a = norm r b.
Proof.
  assert (I : forall l l', Forall (fun a => forall b, sim a b -> forall r, norm r a = norm r b) l -> Forall2 sim l l' -> map (norm rt_default) l = map (norm rt_default) l').
  { intros l l' F S. induction S; inversion F; subst; cbn; f_equal; auto. }
  assert (Fl : forall fs fs' r, Forall (fun s : slot => forall b, sim (snd s) b -> forall r, norm r (snd s) = norm r b) (map fslot fs) -> fsim fs fs' ->
    norm_fields r fs = norm_fields r fs').
  { intros fs fs' r F S. rewrite !norm_fields_map. induction S as [|[fi x] [fj y] fs fs' [E S] _ IH]; [reflexivity|]. cbn [map fst snd] in *. inversion F as [|? ? X F']; subst.
    f_equal; [|now apply IH]. f_equal. now apply X. }
  induction a as [v L|v IH|v C IH] using val_slots_ind; intros b S r.
  - destruct v; try discriminate L; inversion S; subst; reflexivity.
  - inversion S; subst. cbn. f_equal. now apply IH.
  - destruct v as [| | | |[x|]|l|l|l|l| |c ra fs|tag c ra fs|ra l|ra es]; try discriminate C; clear C; cbn [slots] in IH; inversion S; subst.
    + cbn. do 2 f_equal. inversion IH; subst. now apply H2.
    + reflexivity.
    + cbn. f_equal. apply I; [now apply (slot_items (fun a => forall b, sim a b -> forall r, norm r a = norm r b)) in IH|assumption].
    + cbn. f_equal. apply I; [now apply (slot_items (fun a => forall b, sim a b -> forall r, norm r a = norm r b)) in IH|assumption].
    + cbn. f_equal. apply I; [now apply (slot_items (fun a => forall b, sim a b -> forall r, norm r a = norm r b)) in IH|assumption].
    + cbn [norm]. f_equal. clear S. match goal with H : Forall2 _ l _ |- _ => induction H as [|[k x] [k' x'] l l' [Sk Sx] _ IHl] end; [reflexivity|].
      cbn [flat_map hslots app map fst snd] in *. inversion IH as [|? ? K1 IH1]; subst. inversion IH1 as [|? ? X1 IH2]; subst. cbn in K1, X1.
      f_equal; [|now apply IHl]. f_equal; [now apply K1|now apply X1].
    + rewrite !norm_struct. f_equal; [destruct ra, r'; cbn in *; tauto|now apply Fl].
    + rewrite !norm_enum. f_equal; [destruct ra, r'; cbn in *; tauto|now apply Fl].
    + rewrite !norm_list. f_equal. apply (slot_items (fun a => forall b, sim a b -> forall r, norm r a = norm r b)) in IH. clear S. generalize 0. match goal with H : Forall2 _ l _ |- _ => induction H as [|x y l l' Sx _ IHl] end; intros i; [reflexivity|].
      cbn. inversion IH as [|? ? X IH']; subst. f_equal; [now apply X|now apply IHl].
    + rewrite !norm_map. f_equal. clear S. match goal with H : Forall2 _ es _ |- _ => induction H as [|[k x] [k' y] es es' [E Sx] _ IHl] end; [reflexivity|].
      cbn [map fst snd norm_entries] in *. inversion IH as [|? ? X IH']; subst. cbn in X. f_equal; [f_equal; now apply X|now apply IHl].
Qed.

Lemma hash_insert_sim k k' x x' l l' : sim k k' -> sim x x' -> hsim l l' -> hsim (hash_insert k x l) (hash_insert k' x' l').
Proof.
  intros Sk Sx S. induction S as [|[a b] [a' b'] l l' [Sa Sb] S' IH]; cbn [hash_insert]; [constructor; [split; assumption|constructor]|].
  cbn [fst snd] in *. rewrite <- (veqb_norm k a rt_default rt_default), <- (veqb_norm k' a' rt_default rt_default), (sim_norm _ _ Sk), (sim_norm _ _ Sa), !veqb_norm.
  destruct (veqb k' a'); constructor; auto.
Qed.
Lemma assoc_sim k es es' : esim es es' -> match assoc k es, assoc k es' with Some x, Some y => sim x y | None, None => True | _, _ => False end.
Proof. induction 1 as [|[a x] [b y] es es' [E S] _ IH]; cbn; [exact I|]. cbn in E, S. subst. now destruct (k =? b). Qed.
Lemma im_insert_sim k x y es es' : sim x y -> esim es es' -> esim (im_insert k x es) (im_insert k y es').
Proof.
  intros Sx. induction 1 as [|[a b] [c d] es es' [E S] F IH]; cbn; [constructor; auto|]. cbn in E, S. subst. destruct (k =? c); constructor; auto.
Qed.
Lemma Forall2_len {A B} (R : A -> B -> Prop) l l' : Forall2 R l l' -> lenN l = lenN l'.
Proof. intros F. unfold lenN. f_equal. induction F; cbn; auto. Qed.
Lemma Forall2_snoc {A B} (R : A -> B -> Prop) l l' x y : Forall2 R l l' -> R x y -> Forall2 R (l ++ [x]) (l' ++ [y]).
Proof. intros F H. apply Forall2_app; [exact F|]. constructor; [exact H|constructor]. Qed.

Lemma arr_sim m tw mg d : respects mg -> sim d d -> forall l l' bs, Forall2 sim l l' -> agree (Forall2 sim) (arr_loop m tw mg d l bs) (arr_loop m tw mg d l' bs).
Proof.
  intros G Sd l l' bs F. revert bs. induction F as [|x y l l' S F IH]; intros bs; cbn [arr_loop]; [split; [constructor|reflexivity]|]. destruct bs as [|b bs].
  { split; [constructor; auto|reflexivity]. }
  destruct (de_nested m tw mg d (b :: bs)) as [[z rest]|e| |] eqn:E; cbn [try]; try (split; [constructor; auto|reflexivity]).
  pose proof (de_nested_sim m tw mg d d (b :: bs) G Sd) as Z. rewrite E in Z. destruct Z as [Z _].
  destruct (IH rest) as [A B]. destruct (arr_loop m tw mg d l rest), (arr_loop m tw mg d l' rest). cbn in *. subst. split; [constructor; auto|reflexivity].
Qed.
Lemma tup_sim m ts : Forall (fun t => respects (merge m t)) ts -> forall bs,
  match tup_read m (map (fun t => ((wty t, merge m t), dflt t rt_default)) ts) bs with Ok (l, _) => Forall2 sim l l | _ => True end.
Proof.
  induction 1 as [|t ts G _ IH]; intros bs; cbn [map tup_read]; [constructor|].
  pose proof (de_nested_sim m (wty t) (merge m t) _ _ bs G (dflt_sim t rt_default rt_default)) as Z.
  destruct (de_nested m (wty t) (merge m t) (dflt t rt_default) bs) as [[x rest]|e| |]; cbn [bind]; auto. destruct Z as [Z _].
  specialize (IH rest). destruct (tup_read _ _ rest) as [[l r]|e| |]; cbn [bind]; auto.
Qed.

Lemma merge_respects m t : respects (merge m t).
Proof.
  induction t as [k| | | |t IH|t IH|n t IH|ts IH|kt vt IHk IHt|t IH|si fts IH|st vs IH|t IH|k t IH] using ty_ind';
    intros v w bs S; destruct S as [k0 z|b0|s|s| |x y S|l l' F|l l' F|l l' F|l l' F|x y S|c r r' fs fs' Rp F|tag c r r' fs fs' Rp B B' F|r r' l l' F|r r' es es' F];
    try (split; [now constructor|reflexivity]).
  - cbn [merge]. destruct (ikind_eqb k k0); [|split; [constructor|reflexivity]]. apply agree_try; [constructor|]. intros [a b]. split; [constructor|reflexivity].
  - cbn [merge]. apply agree_try; [constructor|]. intros [a b]. split; [constructor|reflexivity].
  - cbn [merge]. destruct (utf8_valid bs); split; try reflexivity; constructor.
  - cbn [merge]. apply (agree_map (fun o o' => sim (VOpt o) (VOpt o')) sim VOpt VOpt); [auto|]. apply run_agree; [|constructor].
    intros s s' b Ss. unfold opt_step.
    assert (X : sim (match s with Some x => x | None => dflt t rt_default end) (match s' with Some x => x | None => dflt t rt_default end)) by (inversion Ss; subst; [apply dflt_sim|assumption]).
    destruct (merge_nested_agree m (wty t) (merge m t) (wty t) _ _ b IH X) as [P Q]. destruct (merge_nested _ _ _ _ _ b), (merge_nested _ _ _ _ (match s' with Some x => x | None => _ end) b). cbn in *. subst.
    split; [now constructor|reflexivity].
  - cbn [merge]. apply (agree_map (fun o o' => sim (VOpt o) (VOpt o')) sim VOpt VOpt); [auto|]. apply run_agree; [|now constructor].
    intros s s' b Ss. unfold opt_step.
    assert (X : sim (match s with Some x => x | None => dflt t rt_default end) (match s' with Some x => x | None => dflt t rt_default end)) by (inversion Ss; subst; [apply dflt_sim|assumption]).
    destruct (merge_nested_agree m (wty t) (merge m t) (wty t) _ _ b IH X) as [P Q]. destruct (merge_nested _ _ _ _ _ b), (merge_nested _ _ _ _ (match s' with Some x => x | None => _ end) b). cbn in *. subst.
    split; [now constructor|reflexivity].
  - cbn [merge]. apply (agree_map (Forall2 sim) sim VVec VVec); [now constructor|]. apply run_agree; [|exact F]. intros s s' b Fs. unfold vec_step.
    pose proof (de_nested_sim m (wty t) (merge m t) _ _ b IH (dflt_sim t rt_default rt_default)) as Z. destruct (de_nested _ _ _ _ b) as [[x rest]|e| |]; try (split; [exact Fs|reflexivity]).
    destruct Z as [Z _]. cbn [try]. split; [now apply Forall2_snoc|reflexivity].
  - cbn [merge]. destruct (arr_sim m (wty t) (merge m t) (dflt t rt_default) IH (dflt_sim t _ _) l l' bs F) as [A B].
    destruct (arr_loop m (wty t) (merge m t) (dflt t rt_default) l bs), (arr_loop m (wty t) (merge m t) (dflt t rt_default) l' bs). cbn in *. subst. split; [now constructor|reflexivity].
  - cbn [merge]. pose proof (tup_sim m ts IH bs) as Z. destruct (tup_read _ _ bs) as [[a b]|e| |]; cbn [try]; split; try reflexivity; now constructor.
  - cbn [merge]. apply (agree_map (Forall2 (fun e e' : val * val => sim (fst e) (fst e') /\ sim (snd e) (snd e'))) sim VHash VHash); [now constructor|]. apply run_agree; [|exact F]. intros s s' b Fs. unfold hash_step.
    pose proof (de_nested_sim m (wty kt) (merge m kt) _ _ b IHk (dflt_sim kt rt_default rt_default)) as Z. destruct (de_nested _ _ _ _ b) as [[x rest]|e| |]; try (split; [exact Fs|reflexivity]).
    destruct Z as [Z _]. cbn [try].
    pose proof (de_nested_sim m (wty vt) (merge m vt) _ _ rest IHt (dflt_sim vt rt_default rt_default)) as Y. destruct (de_nested _ _ _ _ rest) as [[y rest']|e| |]; try (split; [exact Fs|reflexivity]).
    destruct Y as [Y _]. cbn [try]. split; [now apply hash_insert_sim|reflexivity].
  - cbn [merge]. apply (agree_map sim sim VBox VBox); [now constructor|]. now apply IH.
  - cbn [merge]. change (agree sim (let '(fs', o) := run (struct_step m (fmergers m fts)) fs bs in (VStruct c r fs', o)) (let '(fs'0, o) := run (struct_step m (fmergers m fts)) fs' bs in (VStruct c r' fs'0, o))).
    eapply (agree_map _ sim (VStruct c r) (VStruct c r')); [|apply struct_agree; [exact IH|exact F]]. intros a b Fa. now constructor.
  - cbn [merge]. apply agree_try; [now constructor|]. intros [tag' rest].
    induction IH as [|[[vtag vc] fts] vs H _ IHvs]; [split; [now constructor|reflexivity]|]. destruct (tag' =? vtag); [|exact IHvs].
    assert (K : forall x y, sim x y -> agree sim
      (match x with VEnum tag1 c1 r1 fs1 => let '(fs0, o) := run (struct_step m (fmergers m fts)) fs1 rest in (VEnum tag1 c1 r1 fs0, o) | _ => (x, NoFuel) end)
      (match y with VEnum tag1 c1 r1 fs1 => let '(fs0, o) := run (struct_step m (fmergers m fts)) fs1 rest in (VEnum tag1 c1 r1 fs0, o) | _ => (y, NoFuel) end)).
    { intros x y Sxy. destruct Sxy; try (split; [now constructor|reflexivity]).
      eapply (agree_map _ sim (VEnum _ _ _) (VEnum _ _ _)); [|apply struct_agree; [exact H|eassumption]]. intros a b Fa. now constructor. }
    destruct (tag =? tag').
    + cbn [try]. refine (K (VEnum tag c r fs) (VEnum tag c r' fs') _). now constructor.
    + destruct r as [[lg [|p n]]|], r' as [[lg' [|p' n']]|]; try discriminate B; try discriminate B'; try contradiction Rp; cbn [enum_parent bind try].
      * refine (K (variant_ctor st ((vtag, vc), fts) (mkRt lg p)) (variant_ctor st ((vtag, vc), fts) (mkRt lg' p')) _). apply variant_sim.
      * refine (K (variant_ctor st ((vtag, vc), fts) rt_default) (variant_ctor st ((vtag, vc), fts) rt_default) _). apply variant_sim.
  - cbn [merge]. apply (agree_map (Forall2 sim) sim (VList r) (VList r')); [now constructor|]. apply run_agree; [|exact F]. intros s s' b Fs. unfold list_step. rewrite (Forall2_len _ _ _ Fs).
    destruct (merge_nested_agree m (wty t) (merge m t) (wty t) _ _ b IH (dflt_sim t (nested r (lenN s')) (nested r' (lenN s')))) as [P Q].
    destruct (merge_nested _ _ _ _ (dflt t (nested r (lenN s'))) b), (merge_nested _ _ _ _ (dflt t (nested r' (lenN s'))) b). cbn in P, Q. subst.
    apply agree_try; [exact Fs|]. intros rest. split; [now apply Forall2_snoc|reflexivity].
  - cbn [merge]. apply (agree_map (Forall2 (fun p q : N * val => fst p = fst q /\ sim (snd p) (snd q))) sim (VMap r) (VMap r')); [now constructor|]. apply run_agree; [|exact F]. intros s s' b Fs. unfold map_step.
    apply agree_try; [exact Fs|]. intros [n rest]. apply agree_try; [exact Fs|]. intros [fn w]. apply agree_try; [exact Fs|]. intros _. apply agree_try; [exact Fs|]. intros _.
    pose proof (assoc_sim fn s s' Fs) as A. destruct (assoc fn s) as [x|], (assoc fn s') as [y|]; try contradiction A.
    + destruct (merge_nested_agree m (wty t) (merge m t) (wty t) x y rest IH A) as [P Q]. destruct (merge_nested _ _ _ _ x rest), (merge_nested _ _ _ _ y rest). cbn in P, Q. subst.
      split; [now apply im_insert_sim|reflexivity].
    + destruct (merge_nested_agree m (wty t) (merge m t) (wty t) _ _ rest IH (dflt_sim t (nested r fn) (nested r' fn))) as [P Q].
      destruct (merge_nested _ _ _ _ (dflt t (nested r fn)) rest), (merge_nested _ _ _ _ (dflt t (nested r' fn)) rest). cbn in P, Q. subst.
      apply agree_try; [exact Fs|]. intros rest'. split; [now apply im_insert_sim|reflexivity].
Qed.

(** ** Replay *)

Lemma ok_unit_agree a b : agree sim a b -> agree sim (ok_unit a) (ok_unit b).
Proof. destruct a, b. intros [A B]. cbn in *. subst. now split. Qed.
Lemma val_rt_sim v w : sim v w -> match val_rt v, val_rt w with Ok _, Ok _ | Panic, Panic | NoFuel, NoFuel => True | Err e, Err e' => e = e' | _, _ => False end.
Proof. induction 1; cbn; auto; destruct r, r'; auto. Qed.
Lemma handle_update_agree m t bs v w : sim v w -> agree sim (handle_update m t bs v) (handle_update m t bs w).
Proof.
  intros S. assert (V := val_rt_sim v w S).
  assert (D : forall v, sim v v -> agree sim (match deserialize m t bs with Ok (x, _) => (x, Ok tt) | Err e => (v, Err e) | Panic => (v, Panic) | NoFuel => (v, NoFuel) end)
    (match deserialize m t bs with Ok (x, _) => (x, Ok tt) | Err e => (v, Err e) | Panic => (v, Panic) | NoFuel => (v, NoFuel) end)).
  { intros u Su. unfold deserialize. pose proof (merge_respects m t _ _ bs (dflt_sim t rt_default rt_default)) as [Z _]. destruct (merge m t (dflt t rt_default) bs) as [x r]. cbn in Z.
    destruct r; cbn [bind]; split; auto. }
  assert (G : forall a b, agree sim (ok_unit (merge m t (dflt t a) bs)) (ok_unit (merge m t (dflt t b) bs))) by (intros a b; apply ok_unit_agree, merge_respects, dflt_sim).
  inversion S; subst; unfold handle_update; try (apply D; constructor); try (split; [exact S|reflexivity]).
  - cbn [val_rt] in *. destruct (val_rt x), (val_rt y); try contradiction V; try (split; [exact S|cbn; congruence]). apply G.
  - destruct r as [r|], r' as [r'|]; try contradiction; cbn [val_rt]; [apply G|split; [exact S|reflexivity]].
  - destruct r as [[lg [|p n]]|], r' as [[lg' [|p' n']]|]; try discriminate; try contradiction; cbn [val_rt]; [apply G|split; [exact S|reflexivity]].
  - apply G.
  - apply G.
Qed.

Definition hrespects (h : handler) : Prop := forall path kind key bs v w, sim v w -> agree sim (h path kind key bs v) (h path kind key bs w).
Lemma find_field_sim fn fs fs' : fsim fs fs' -> match find_field fn fs, find_field fn fs' with Some (_, x), Some (_, y) => sim x y | None, None => True | _, _ => False end.
Proof. induction 1 as [|[fi x] [fj y] fs fs' [E S] _ IH]; cbn; [exact I|]. cbn in E, S. subst. now destruct (fn =? f_tag fj). Qed.
Lemma put_field_sim fn x y fs fs' : sim x y -> fsim fs fs' -> fsim (put_field fn x fs) (put_field fn y fs').
Proof. intros Sx. induction 1 as [|[fi a] [fj b] fs fs' [E S] F IH]; cbn; [constructor|]. cbn in E, S. subst. destruct (fn =? f_tag fj); constructor; auto. Qed.
Lemma handle_field_agree m fts : Forall (fun p => hrespects (handle m (snd p))) fts -> forall fs fs' fn path kind key bs, fsim fs fs' ->
  agree (Forall2 (fun p q : finfo * val => fst p = fst q /\ sim (snd p) (snd q))) (handle_field (hfields m fts) fs fn path kind key bs) (handle_field (hfields m fts) fs' fn path kind key bs).
Proof.
  intros H fs fs' fn path kind key bs F. unfold handle_field. rewrite find_hfields. destruct (find_field fn fts) as [[fi t]|] eqn:E; [|split; [exact F|reflexivity]].
  destruct (f_state fi); [|split; [exact F|reflexivity]].
  assert (G : hrespects (handle m t)).
  { clear -H E. induction H as [|[fj u] fts X _ IH]; [discriminate|]. cbn in E. destruct (fn =? f_tag fj); [injection E as <- <-; exact X|now apply IH]. }
  pose proof (find_field_sim fn fs fs' F) as Q. destruct (find_field fn fs) as [[fa x]|], (find_field fn fs') as [[fb y]|]; try contradiction Q; [|split; [exact F|reflexivity]].
  destruct (G path kind key bs x y Q) as [A B]. destruct (handle m t path kind key bs x), (handle m t path kind key bs y). cbn in *. subst. split; [now apply put_field_sim|reflexivity].
Qed.
Lemma Forall2_nth {A B} (R : A -> B -> Prop) l l' : Forall2 R l l' -> forall i, match nth_error l i, nth_error l' i with Some x, Some y => R x y | None, None => True | _, _ => False end.
Proof. induction 1; intros [|i]; cbn; auto. apply IHForall2. Qed.
Lemma Forall2_set {A B} (R : A -> B -> Prop) l l' : Forall2 R l l' -> forall i x y, R x y -> Forall2 R (set_nth l i x) (set_nth l' i y).
Proof. induction 1; intros [|i] a b Rab; cbn; constructor; auto. Qed.
Lemma Forall2_removelast {A B} (R : A -> B -> Prop) l l' : Forall2 R l l' -> Forall2 R (removelast l) (removelast l').
Proof. induction 1 as [|x y l l' H F IH]; [constructor|]. cbn. inversion F; subst; constructor; auto. Qed.
Lemma Forall2_firstn {A B} (R : A -> B -> Prop) l l' : Forall2 R l l' -> forall i, Forall2 R (firstn i l) (firstn i l').
Proof. induction 1; intros [|i]; cbn; constructor; auto. Qed.
Lemma Forall2_skipn {A B} (R : A -> B -> Prop) l l' : Forall2 R l l' -> forall i, Forall2 R (skipn i l) (skipn i l').
Proof. induction 1; intros [|i]; cbn; try constructor; auto. Qed.
Lemma Forall2_rev {A B} (R : A -> B -> Prop) l l' : Forall2 R l l' -> Forall2 R (rev l) (rev l').
Proof. induction 1; cbn; [constructor|]. now apply Forall2_snoc. Qed.
Lemma im_remove_sim k es es' : esim es es' -> esim (im_remove k es) (im_remove k es').
Proof.
  intros F. unfold im_remove.
  assert (K : key_pos k es = key_pos k es'). { induction F as [|[a x] [b y] es es' [E _] _ IH]; [reflexivity|]. cbn in *. subst. now rewrite IH. }
  rewrite K. destruct (key_pos k es') as [i|]; [|exact F]. unfold swap_remove_at.
  pose proof (Forall2_rev _ _ _ F) as Rv. pose proof (Forall2_removelast _ _ _ F) as Rl.
  assert (L : length es = length es') by (clear -F; induction F; cbn; auto). rewrite L.
  inversion Rv as [|x y l l' Sxy _ Ex Ey]; subst; [constructor|]. destruct (Nat.eqb (S i) (length es')); [exact Rl|].
  apply Forall2_app; [now apply Forall2_firstn|]. constructor; [assumption|now apply Forall2_skipn].
Qed.

Lemma handle_respects m t : hrespects (handle m t).
Proof.
  induction t as [k| | | |t IH|t IH|n t IH|ts IH|kt vt IHk IHt|t IH|si fts IH|st vs IH|t IH|k t IH] using ty_ind';
    intros path kind key bs v w S; destruct S as [k0 z|b0|s|s| |x y S|l l' F|l l' F|l l' F|l l' F|x y S|c r r' fs fs' Rp F|tag c r r' fs fs' Rp B B' F|r r' l l' F|r r' es es' F];
    try (split; [now constructor|reflexivity]).
  - cbn [handle]. destruct path; [|split; [constructor|reflexivity]]. destruct kind; try (split; [constructor|reflexivity]). apply handle_update_agree. constructor.
  - cbn [handle]. destruct path; [|split; [constructor|reflexivity]]. destruct kind; try (split; [constructor|reflexivity]). apply handle_update_agree. constructor.
  - cbn [handle]. apply (agree_map sim sim VBox VBox); [now constructor|]. now apply IH.
  - destruct r as [r|], r' as [r'|]; try contradiction Rp; [|split; [now constructor|reflexivity]]. destruct path as [|fn path].
    + cbn [handle]. destruct kind; try (split; [now constructor|reflexivity]). apply handle_update_agree. now constructor.
    + rewrite !handle_struct. eapply (agree_map _ sim (VStruct c (Some r)) (VStruct c (Some r'))); [|apply handle_field_agree; [exact IH|exact F]]. intros a b Fa. now constructor.
  - destruct r as [r|], r' as [r'|]; try contradiction Rp; [|split; [now constructor|reflexivity]]. destruct path as [|tag' path].
    + cbn [handle]. destruct kind; try (split; [now constructor|reflexivity]). apply handle_update_agree. now constructor.
    + rewrite !handle_enum. destruct (find_variant vs tag') as [[[vt vc] fts]|] eqn:Fv; [|split; [now constructor|reflexivity]].
      destruct (tag =? tag'); [|split; [now constructor|reflexivity]]. destruct path as [|fn path]; [split; [now constructor|reflexivity]|].
      apply find_variant_in in Fv. destruct Fv as [Fv _]. rewrite Forall_forall in IH. specialize (IH _ Fv). cbn [snd] in IH.
      eapply (agree_map _ sim (VEnum tag c (Some r)) (VEnum tag c (Some r'))); [|apply handle_field_agree; [exact IH|exact F]]. intros a b Fa. now constructor.
  - cbn [handle]. destruct path as [|i path].
    + destruct kind; try (split; [now constructor|reflexivity]).
      * apply handle_update_agree. now constructor.
      * rewrite (Forall2_len _ _ _ F). pose proof (merge_respects m t _ _ bs (dflt_sim t (nested r (lenN l')) (nested r' (lenN l')))) as [P Q].
        destruct (merge m t (dflt t (nested r (lenN l'))) bs) as [x o], (merge m t (dflt t (nested r' (lenN l'))) bs) as [y o']. cbn in P, Q. subst.
        destruct o'; split; try reflexivity; constructor; try exact F. now apply Forall2_snoc.
      * pose proof (Forall2_removelast _ _ _ F) as Rl. inversion F; subst; split; try reflexivity; now constructor.
    + pose proof (Forall2_nth _ _ _ F (N.to_nat i)) as Q. destruct (nth_error l (N.to_nat i)) as [x|], (nth_error l' (N.to_nat i)) as [y|]; try contradiction Q; [|split; [now constructor|reflexivity]].
      destruct (IH path kind key bs x y Q) as [A B]. destruct (handle m t path kind key bs x), (handle m t path kind key bs y). cbn in A, B. subst.
      split; [constructor; now apply Forall2_set|reflexivity].
  - cbn [handle]. destruct path as [|i path].
    + destruct kind; try (split; [now constructor|reflexivity]).
      * apply handle_update_agree. now constructor.
      * destruct key as [k0|]; [|split; [now constructor|reflexivity]]. pose proof (assoc_sim k0 es es' F) as Q.
        destruct (assoc k0 es), (assoc k0 es'); try contradiction Q; split; try reflexivity; constructor; [now apply im_remove_sim|exact F].
    + pose proof (assoc_sim i es es' F) as Q. destruct (assoc i es) as [x|], (assoc i es') as [y|]; try contradiction Q.
      * destruct (IH path kind key bs x y Q) as [A B]. destruct (handle m t path kind key bs x), (handle m t path kind key bs y). cbn in A, B. subst.
        split; [constructor; now apply im_insert_sim|reflexivity].
      * destruct kind; try (split; [now constructor|reflexivity]). destruct path; [|split; [now constructor|reflexivity]].
        pose proof (merge_respects m t _ _ bs (dflt_sim t (nested r i) (nested r' i))) as [P Q2].
        destruct (merge m t (dflt t (nested r i)) bs) as [x o], (merge m t (dflt t (nested r' i)) bs) as [y o']. cbn in P, Q2. subst.
        destruct o'; split; try reflexivity; constructor; try exact F. now apply im_insert_sim.
Qed.

Lemma replay_agree m t v w bs : sim v w -> is_root v = is_root w -> agree sim (replay m t v bs) (replay m t w bs).
Proof.
  intros S E. unfold replay. rewrite <- E. destruct (is_root v) as [[|]|e| |]; try (split; [exact S|reflexivity]). apply ok_unit_agree. apply run_agree; [|exact S].
  intros a b bs' Sab. unfold replay_step. apply agree_try; [exact Sab|]. intros [e rest].
  destruct (handle_respects m t (entry_path e) (entry_kind e) (entry_key e) (entry_bytes e) a b Sab) as [A B]. unfold handle_entry.
  destruct (handle m t _ _ _ _ a), (handle m t _ _ _ _ b). cbn in *. subst. split; [exact A|reflexivity].
Qed.

(** ** [same] on well-typed values is [sim] *)
Definition simt (t : ty) : Prop := forall v w r, wt t v = true -> wt t w = true -> norm r v = norm r w -> sim v w.
Lemma items_sim t r : simt t -> forall l l', forallb (wt t) l = true -> forallb (wt t) l' = true -> map (norm r) l = map (norm r) l' -> Forall2 sim l l'.
Proof.
  intros H. induction l as [|x l IH]; intros [|y l'] W W' E; try discriminate E; [constructor|]. cbn in *. bprop. injection E as E1 E2.
  constructor; [now apply (H x y r)|now apply IH].
Qed.
Lemma fields_sim fts : Forall (fun p => simt (snd p)) fts -> forall fs fs' r, wt_fields fts fs = true -> wt_fields fts fs' = true ->
  norm_fields r fs = norm_fields r fs' -> fsim fs fs'.
Proof.
  induction 1 as [|[fi t] fts H _ IH]; intros [|[fa x] fs] [|[fb y] fs'] r W W' E; try discriminate W; try discriminate W'; [constructor|].
  cbn [wt_fields] in *. bprop. rewrite !norm_fields_map in E. cbn [map] in E. injection E as E1 E2 E3. subst fb. constructor.
  - split; [reflexivity|]. cbn in *. now apply (H x y (field_rt r fa)).
  - apply (IH fs fs' r); try assumption. now rewrite !norm_fields_map.
Qed.
Lemma norm_sim t : simt t.
Proof.
  induction t as [k| | | |t IH|t IH|n t IH|ts IH|kt vt IHk IHt|t IH|si fts IH|st vs IH|t IH|k t IH] using ty_ind'; intros v w r0 Wv Ww E;
    destruct v as [k0 z|b|s|s|o|l|l|l|l|x|c r fs|tag c r fs|r l|r es]; try discriminate Wv; destruct w as [k1 z'|b'|s'|s'|o'|l'|l'|l'|l'|x'|c' r' fs'|tag' c' r' fs'|r' l'|r' es']; try discriminate Ww.
  - injection E as <- <-. constructor.
  - injection E as <-. constructor.
  - injection E as <-. constructor.
  - injection E as <-. constructor.
  - destruct o as [x|], o' as [y|]; try discriminate E; constructor. cbn in *. injection E as E. now apply (IH x y rt_default).
  - cbn in *. injection E as E. constructor. now apply (items_sim t rt_default).
  - cbn in *. bprop. injection E as E. constructor. now apply (items_sim t rt_default).
  - rewrite wt_tup_eq in *. cbn [norm] in E. injection E as E. constructor. revert l l' Wv Ww E. induction IH as [|t ts H _ IH]; intros [|x l] [|y l'] W W' E; try discriminate W; try discriminate W'; [constructor|].
    cbn in *. bprop. injection E as E1 E2. constructor; [now apply (H x y rt_default)|now apply IH].
  - cbn [wt norm] in *. bprop. injection E as E. constructor.
    assert (Wl : forallb (fun e : val * val => wt kt (fst e) && wt vt (snd e)) l = true) by assumption.
    assert (Wl' : forallb (fun e : val * val => wt kt (fst e) && wt vt (snd e)) l' = true) by assumption.
    clear -Wl Wl' E IHk IHt. revert l' Wl' E. induction l as [|[a x] l IHl]; intros [|[b y] l'] W' E; try discriminate E; [constructor|].
    cbn in *. bprop. injection E as E1 E2 E3. constructor; [|now apply IHl]. cbn. split; [now apply (IHk a b rt_default)|now apply (IHt x y rt_default)].
  - cbn in *. injection E as E. constructor. now apply (IH x x' r0).
  - rewrite wt_struct_eq in *. rewrite !norm_struct in E. injection E as -> E1 E2. bprop. constructor; [destruct r, r'; cbn; congruence || exact I|]. now apply (fields_sim fts IH fs fs' r0).
  - rewrite wt_enum_eq in *. rewrite !norm_enum in E. injection E as -> -> E1 E2. bprop.
    destruct (find_variant vs tag') as [[[tg c0] fts]|] eqn:F; [|discriminate]. bprop. apply find_variant_in in F. destruct F as [F _]. rewrite Forall_forall in IH. specialize (IH _ F). cbn [snd] in IH.
    constructor; try assumption; [destruct r, r'; cbn; congruence || exact I|]. now apply (fields_sim fts IH fs fs' (nested r0 tag')).
  - rewrite !norm_list in E. injection E as E. cbn [wt] in *. constructor. revert E. generalize 0 as i. revert l' Ww. induction l as [|x l IHl]; intros [|y l'] W' i E; try discriminate E; [constructor|].
    cbn in *. bprop. injection E as E1 E2. constructor; [now apply (IH x y (nested r0 i))|now apply (IHl ltac:(assumption) l' ltac:(assumption) (i + 1))].
  - rewrite !norm_map in E. injection E as E. cbn [wt] in *. bprop. constructor.
    assert (Wl : forallb (fun e : N * val => (fst e <? 2 ^ 32) && wt t (snd e)) es = true) by assumption.
    assert (Wl' : forallb (fun e : N * val => (fst e <? 2 ^ 32) && wt t (snd e)) es' = true) by assumption.
    clear -Wl Wl' E IH. revert es' Wl' E. induction es as [|[a x] es IHl]; intros [|[b y] es'] W' E; try discriminate E; [constructor|].
    cbn in *. bprop. injection E as -> E2 E3. constructor; [|now apply IHl]. cbn. split; [reflexivity|]. now apply (IH x y (nested r0 b)).
Qed.
Lemma same_sim t v w : wt t v = true -> wt t w = true -> same v w -> sim v w.
Proof. intros Wv Ww E. now apply (norm_sim t v w rt_default). Qed.
